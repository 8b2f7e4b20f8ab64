(** Small specification vocabulary for the properties about expressions,
    independent of the generic term machinery, and its agreement with it. *)
From Verif Require Import Base Scalar Tensor Types Phi Den Term PhiTerm Lining Outline.

Section SpecPhi.
Context {FO : FloatOps}.

(** [free_in s e]: [s] occurs in [e] outside the scope of any binder of [s].
    A let binds in its body only, a comprehension in its body only, a fold
    binds its counter and accumulator in its body only, a reduction binds its
    two operands in its combining expression only. *)
Fixpoint free_in (s : sym) (e : phi) : Prop :=
  let any (l : list phi) := fold_right or False (map (free_in s) l) in
  match e with
  | PConst _ => False
  | PStore s' _ => s = s'
  | PLet x b body => free_in s b \/ (s <> SV x /\ free_in s body)
  | PAssertEq t ops => free_in s t \/ any ops
  | PDim t _ => free_in s t
  | PGet t i => free_in s t \/ free_in s i
  | PCons a b => free_in s a \/ free_in s b
  | PFirst t | PSecond t => free_in s t
  | PVec i size body => free_in s size \/ (s <> SX i /\ free_in s body)
  | PFold c size acc init body =>
      free_in s size \/ free_in s init \/ (s <> SV c /\ s <> SV acc /\ free_in s body)
  | PReduce init x y xy vecs =>
      free_in s init \/ any vecs \/ (s <> SV x /\ s <> SV y /\ free_in s xy)
  | PUn _ a => free_in s a
  | PBin _ a b => free_in s a \/ free_in s b
  | PWhere c a b => free_in s c \/ free_in s a \/ free_in s b
  | PConcat a b => free_in s a \/ free_in s b
  | PExt _ _ ops => any ops
  end.

(** [bound_in s e]: some binder inside [e] binds [s]. *)
Definition bound_in (s : sym) (e : phi) : Prop := In s (bsyms e).

Lemma any_Exists (P : phi -> Prop) l : fold_right or False (map P l) <-> exists c, In c l /\ P c.
Proof.
  induction l as [|x l IH]; simpl; [firstorder|]. rewrite IH. split.
  - intros [H|(c & Hc & H)]; eauto.
  - intros (c & [<-|Hc] & H); eauto.
Qed.

Lemma scopes_const_in {A} (l : list A) k (sc : list sym) :
  nth_error (map (fun _ => []) l) k = Some sc -> sc = [].
Proof. rewrite nth_error_map. destruct (nth_error l k); simpl; congruence. Qed.

Lemma free_in_isfree s (e : phi) : free_in s e <-> isfree s e.
Proof.
  induction e using phi_ind'; simpl.
  - split; [tauto|]. intros H. inversion H as [? H0|? k c sc H0]; subst; [discriminate|destruct k; discriminate].
  - split; [intros ->; constructor; reflexivity|]. intros H. inversion H as [? H0|? k c sc H0]; subst.
    + simpl in H0. congruence.
    + destruct k; discriminate.
  - rewrite IHe1, IHe2. split.
    + intros [H|[N H]]; [eapply (free_sub s _ 0)|eapply (free_sub s _ 1)]; simpl; eauto. simpl. intuition congruence.
    + intros H. inversion H as [? H0|? k c sc H0 H1]; subst; [discriminate|].
      destruct k as [|[|[|k]]]; simpl in H0, H1; try discriminate; injection H0 as <-; injection H1 as <-; auto.
      right. split; auto. intros ->. simpl in *. tauto.
  - rewrite any_Exists, IHe. rewrite Forall_forall in H. split.
    + intros [Hf|(c & Hc & Hf)]; [eapply (free_sub s _ 0); simpl; eauto|].
      pose proof (proj1 (H c Hc) Hf) as Hf'. apply In_nth_error in Hc as [k Hk].
      eapply (free_sub s _ (S k)); simpl; eauto; [rewrite nth_error_map, Hk; reflexivity|auto].
    + intros Hf. inversion Hf as [? H0|? k c sc H0 H1 H2]; subst; [discriminate|].
      destruct k as [|k]; simpl in H0; [injection H0 as <-; auto|]. right. exists c.
      apply nth_error_In in H0. split; auto. apply H; auto.
  - rewrite IHe. split; [intros H; eapply (free_sub s _ 0); simpl; eauto|]. intros H.
    inversion H as [? H0|? k c sc H0 H1]; subst; [discriminate|]. destruct k as [|[|k]]; try discriminate.
    injection H0 as <-; auto.
  - rewrite IHe1, IHe2. split.
    + intros [H|H]; [eapply (free_sub s _ 0)|eapply (free_sub s _ 1)]; simpl; eauto.
    + intros H. inversion H as [? H0|? k c sc H0 H1]; subst; [discriminate|].
      destruct k as [|[|[|k]]]; try discriminate; injection H0 as <-; auto.
  - rewrite IHe1, IHe2. split.
    + intros [H|H]; [eapply (free_sub s _ 0)|eapply (free_sub s _ 1)]; simpl; eauto.
    + intros H. inversion H as [? H0|? k c sc H0 H1]; subst; [discriminate|].
      destruct k as [|[|[|k]]]; try discriminate; injection H0 as <-; auto.
  - rewrite IHe. split; [intros H; eapply (free_sub s _ 0); simpl; eauto|]. intros H.
    inversion H as [? H0|? k c sc H0 H1]; subst; [discriminate|]. destruct k as [|[|k]]; try discriminate.
    injection H0 as <-; auto.
  - rewrite IHe. split; [intros H; eapply (free_sub s _ 0); simpl; eauto|]. intros H.
    inversion H as [? H0|? k c sc H0 H1]; subst; [discriminate|]. destruct k as [|[|k]]; try discriminate.
    injection H0 as <-; auto.
  - rewrite IHe1, IHe2. split.
    + intros [H|[N H]]; [eapply (free_sub s _ 0)|eapply (free_sub s _ 1)]; simpl; eauto. simpl. intuition congruence.
    + intros H. inversion H as [? H0|? k c sc H0 H1]; subst; [discriminate|].
      destruct k as [|[|[|k]]]; simpl in H0, H1; try discriminate; injection H0 as <-; injection H1 as <-; auto.
      right. split; auto. intros ->. simpl in *. tauto.
  - rewrite IHe1, IHe2, IHe3. split.
    + intros [H|[H|(N & N' & H)]];
        [eapply (free_sub s _ 0)|eapply (free_sub s _ 1)|eapply (free_sub s _ 2)]; simpl; eauto.
      simpl. intuition congruence.
    + intros H. inversion H as [? H0|? k c' sc H0 H1 H2 H3]; subst; [discriminate|].
      destruct k as [|[|[|[|k]]]]; simpl in H0, H1; try discriminate; injection H0 as <-; injection H1 as <-; auto.
      right. right. simpl in H3. repeat split; auto; intros ->; tauto.
  - rewrite any_Exists, IHe1, IHe2. rewrite Forall_forall in H. split.
    + intros [Hf|[(c & Hc & Hf)|(N & N' & Hf)]].
      * eapply (free_sub s _ 0); simpl; eauto.
      * pose proof (proj1 (H c Hc) Hf) as Hf'. apply In_nth_error in Hc as [k Hk].
        assert (k < length vecs) by (apply nth_error_Some; congruence).
        eapply (free_sub s _ (S k) c []); simpl; auto.
        -- rewrite nth_error_app1; auto.
        -- rewrite nth_error_app1 by (rewrite map_length; auto). rewrite nth_error_map, Hk. auto.
      * eapply (free_sub s _ (S (length vecs)) e2 [SV x; SV y]); simpl; auto.
        -- rewrite nth_error_app2, Nat.sub_diag; auto.
        -- rewrite nth_error_app2 by (rewrite map_length; auto). rewrite map_length, Nat.sub_diag. auto.
        -- intuition congruence.
    + intros Hf. inversion Hf as [? H0|? k c sc H0 H1 H2 H3]; subst; [discriminate|].
      destruct k as [|k]; simpl in H0, H1; [injection H0 as <-; auto|]. right.
      destruct (Nat.lt_ge_cases k (length vecs)) as [Hk|Hk].
      * left. rewrite nth_error_app1 in H0 by auto. apply nth_error_In in H0. exists c. split; auto.
        apply H; auto.
      * right. rewrite nth_error_app2 in H0 by auto.
        rewrite nth_error_app2 in H1 by (rewrite map_length; auto). rewrite map_length in H1.
        destruct (k - length vecs) as [|[|j]]; simpl in H0, H1; try discriminate.
        injection H0 as <-. injection H1 as <-. simpl in H3. repeat split; auto; intros ->; tauto.
  - rewrite IHe. split; [intros H; eapply (free_sub s _ 0); simpl; eauto|]. intros H.
    inversion H as [? H0|? k c sc H0 H1]; subst; [discriminate|]. destruct k as [|[|k]]; try discriminate.
    injection H0 as <-; auto.
  - rewrite IHe1, IHe2. split.
    + intros [H|H]; [eapply (free_sub s _ 0)|eapply (free_sub s _ 1)]; simpl; eauto.
    + intros H. inversion H as [? H0|? k c sc H0 H1]; subst; [discriminate|].
      destruct k as [|[|[|k]]]; try discriminate; injection H0 as <-; auto.
  - rewrite IHe1, IHe2, IHe3. split.
    + intros [H|[H|H]]; [eapply (free_sub s _ 0)|eapply (free_sub s _ 1)|eapply (free_sub s _ 2)]; simpl; eauto.
    + intros H. inversion H as [? H0|? k c sc H0 H1]; subst; [discriminate|].
      destruct k as [|[|[|[|k]]]]; try discriminate; injection H0 as <-; auto.
  - rewrite IHe1, IHe2. split.
    + intros [H|H]; [eapply (free_sub s _ 0)|eapply (free_sub s _ 1)]; simpl; eauto.
    + intros H. inversion H as [? H0|? k c sc H0 H1]; subst; [discriminate|].
      destruct k as [|[|[|k]]]; try discriminate; injection H0 as <-; auto.
  - rewrite any_Exists. rewrite Forall_forall in H. split.
    + intros (c & Hc & Hf). pose proof (proj1 (H c Hc) Hf) as Hf'. apply In_nth_error in Hc as [k Hk].
      eapply (free_sub s _ k); simpl; eauto; [rewrite nth_error_map, Hk; reflexivity|auto].
    + intros Hf. inversion Hf as [? H0|? k c sc H0 H1 H2]; subst; [discriminate|].
      simpl in H0. exists c. apply nth_error_In in H0. split; auto. apply H; auto.
Qed.

Lemma bsyms_list e : bsyms e = captured e ++ flat_map bsyms (subterms e).
Proof.
  destruct e; simpl; rewrite ?app_nil_r, ?flat_map_app; simpl; rewrite ?app_nil_r; auto.
Qed.

Lemma bsyms_eq e s :
  In s (bsyms e) <-> In s (captured e) \/ exists c, In c (subterms e) /\ In s (bsyms c).
Proof. rewrite bsyms_list, in_app_iff, in_flat_map. tauto. Qed.

Lemma bound_in_binds s (e : phi) : bound_in s e <-> binds s e.
Proof.
  unfold bound_in. remember (psize e) as n eqn:En. revert e En.
  induction n as [n IH] using lt_wf_ind. intros e ->. rewrite bsyms_eq. split.
  - intros [H|(c & Hc & H)]; [apply binds_self; auto|].
    eapply binds_sub; eauto. apply (IH (psize c)); auto. exact (@tsize_sub phi PhiOps PhiLaws e c Hc).
  - intros (m & Hm & Hs). inversion Hm as [|? c ? Hc Hsub]; subst; auto.
    right. exists c. split; auto. apply (IH (psize c)); auto; [exact (@tsize_sub phi PhiOps PhiLaws e c Hc)|].
    exists m. auto.
Qed.

End SpecPhi.
