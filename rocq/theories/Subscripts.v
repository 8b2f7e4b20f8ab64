(** Facts about [to_einsum_subs]. *)
From Coq Require Import Permutation.
From Verif Require Import Base Scalar Tensor Types Sym Phi NdOps Yarr Codegen.

Section Letters.

Definition lettered (al : list (nat * nat)) : Prop :=
  NoDup (map fst al) /\ map snd al = seq 0 (length al) /\ length al <= 26.

Lemma assoc_in (x c : nat) al : assoc x al = Some c -> In (x, c) al.
Proof.
  induction al as [|[y d] al IH]; simpl; [discriminate|]. destruct (x =? y) eqn:E.
  - apply Nat.eqb_eq in E. intros H. injection H as ->. subst. auto.
  - auto.
Qed.
Lemma assoc_none (x : nat) (al : list (nat * nat)) : assoc x al = None -> ~ In x (map fst al).
Proof.
  induction al as [|[y d] al IH]; simpl; auto. destruct (x =? y) eqn:E; [discriminate|].
  apply Nat.eqb_neq in E. intros H [Q|Q]; [auto|]. apply IH in H. auto.
Qed.
Lemma assoc_some (x : nat) (al : list (nat * nat)) : In x (map fst al) -> exists c, assoc x al = Some c.
Proof. intros H. destruct (assoc x al) eqn:E; eauto. apply assoc_none in E. tauto. Qed.
Lemma assoc_app (x : nat) (al bl : list (nat * nat)) : In x (map fst al) -> assoc x (al ++ bl) = assoc x al.
Proof.
  induction al as [|[y d] al IH]; simpl; [tauto|]. destruct (x =? y) eqn:E; auto.
  apply Nat.eqb_neq in E. intros [Q|Q]; [congruence|auto].
Qed.

Lemma add_letters_spec l : forall al al', lettered al -> add_letters al l = Ok al' ->
  lettered al' /\ incl l (map fst al') /\ incl (map fst al') (map fst al ++ l).
Proof.
  induction l as [|x l IH]; simpl; intros al al' HL H.
  - injection H as <-. split; auto. split; [intros x []|]. rewrite app_nil_r. apply incl_refl.
  - destruct (assoc x al) as [c|] eqn:Ex.
    + assert (Hin : In x (map fst al)).
      { apply assoc_in in Ex. apply in_map_iff. exists (x, c). auto. }
      assert (K : incl (map fst al) (map fst al')).
      { clear -H. revert al H. induction l as [|y l IH]; simpl; intros al H.
        - injection H as <-. apply incl_refl.
        - destruct (assoc y al); auto. apply bind_ok in H as (u & _ & H). apply IH in H.
          rewrite map_app in H. intros z Hz. apply H. apply in_or_app; auto. }
      destruct (IH al al' HL H) as (A & B & C). split; auto. split.
      * intros y [<-|Hy]; auto.
      * intros y Hy. apply C in Hy. apply in_app_or in Hy. apply in_or_app. simpl. tauto.
    + apply bind_ok in H as (u & G & H). apply guard_ok in G. apply Nat.ltb_lt in G.
      assert (HL' : lettered (al ++ [(x, length al)])).
      { destruct HL as (H1 & H2 & H3). split; [|split].
        - rewrite map_app. simpl. apply assoc_none in Ex.
          apply (Permutation_NoDup (l := x :: map fst al)).
          + apply Permutation_cons_append.
          + constructor; auto.
        - rewrite map_app, app_length, Nat.add_1_r, seq_S, H2. reflexivity.
        - rewrite app_length. simpl. lia. }
      assert (K : incl (map fst (al ++ [(x, length al)])) (map fst al')).
      { clear -H. revert H. generalize (al ++ [(x, length al)]). induction l as [|y l IH]; simpl; intros bl H.
        - injection H as <-. apply incl_refl.
        - destruct (assoc y bl); auto. apply bind_ok in H as (u & _ & H). apply IH in H.
          rewrite map_app in H. intros z Hz. apply H. apply in_or_app; auto. }
      destruct (IH _ _ HL' H) as (A & B & C). split; auto. split.
      * intros y [<-|Hy]; auto. apply K. rewrite map_app. apply in_or_app. simpl. auto.
      * intros y Hy. apply C in Hy. rewrite map_app in Hy. apply in_app_or in Hy. apply in_or_app. simpl in *.
        destruct Hy as [Hy|Hy]; auto. apply in_app_or in Hy. simpl in Hy. tauto.
Qed.

Lemma lettered_inj al x y c : lettered al -> assoc x al = Some c -> assoc y al = Some c -> x = y.
Proof.
  intros (H1 & H2 & _) Hx Hy. apply assoc_in in Hx, Hy.
  assert (N : NoDup (map snd al)) by (rewrite H2; apply seq_NoDup).
  clear H1 H2. induction al as [|[z d] al IH]; [destruct Hx|]. simpl in *. inversion N; subst.
  destruct Hx as [Hx|Hx], Hy as [Hy|Hy]; auto.
  - congruence.
  - injection Hx as -> ->. exfalso. apply H1. apply in_map_iff. exists (y, c). auto.
  - injection Hy as -> ->. exfalso. apply H1. apply in_map_iff. exists (x, c). auto.
Qed.

Lemma add_letters_ok l : forall al, lettered al ->
  length (nodup Nat.eq_dec (map fst al ++ l)) <= 26 -> exists al', add_letters al l = Ok al'.
Proof.
  induction l as [|x l IH]; simpl; intros al HL H; eauto.
  destruct (assoc x al) as [c|] eqn:Ex.
  - apply IH; auto. eapply Nat.le_trans; [|exact H]. apply NoDup_incl_length; [apply NoDup_nodup|].
    intros y Hy. apply nodup_In in Hy. apply nodup_In. apply in_app_or in Hy. apply in_or_app. simpl. tauto.
  - assert (Hn := assoc_none _ _ Ex). destruct HL as (H1 & H2 & H3).
    assert (L1 : length al < 26).
    { eapply Nat.lt_le_trans; [|exact H]. rewrite <- (map_length fst al).
      change (S (length (map fst al)) <= length (nodup Nat.eq_dec (map fst al ++ x :: l))).
      change (S (length (map fst al))) with (length (x :: map fst al)).
      apply NoDup_incl_length; [constructor; auto|]. intros y [<-|Hy]; apply nodup_In, in_or_app; simpl; auto. }
    apply Nat.ltb_lt in L1. rewrite L1. cbn [guard bind]. apply Nat.ltb_lt in L1. apply IH.
    + split; [|split].
      * rewrite map_app. apply (Permutation_NoDup (l := x :: map fst al)).
        -- apply Permutation_cons_append.
        -- constructor; auto.
      * rewrite map_app, app_length, Nat.add_1_r, seq_S, H2. reflexivity.
      * rewrite app_length. simpl. lia.
    + rewrite map_app, <- app_assoc. exact H.
Qed.
End Letters.
