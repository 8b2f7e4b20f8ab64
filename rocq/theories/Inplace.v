(** Facts about [apply_inplace]: it only sets markers. *)
From Verif Require Import Base Scalar Tensor Types Sym Phi Den NdOps Term PhiTerm NdFacts DenWf Yarr YTerm YWf
  Machine MachineSim MachineRun.

Section Inplace.
Context {FO : FloatOps} {EX : Externs} {PO : PadOps}.

Lemma apply_inplace_eq e : apply_inplace e = mark_inplace (ymap apply_inplace e).
Proof. destruct e; reflexivity. Qed.

Lemma mark_cases e : mark_inplace e = e \/ exists o a b i, e = YBin o a b None /\ mark_inplace e = YBin o a b (Some i) /\
  (i = 0 /\ is_temporary a = true \/ i = 1 /\ is_temporary b = true).
Proof.
  destruct e; auto. destruct inplace; auto. unfold mark_inplace. set (e := YBin _ _ _ _).
  destruct (yrank e =? 0); auto.
  destruct (_ && is_temporary e1) eqn:T1.
  - right. exists o, e1, e2, 0. split; auto. split; auto. left. split; auto. apply andb_true_iff in T1. tauto.
  - destruct (_ && is_temporary e2) eqn:T2; auto.
    right. exists o, e1, e2, 1. split; auto. split; auto. right. split; auto. apply andb_true_iff in T2. tauto.
Qed.

Lemma mark_yeval R e : yeval R (mark_inplace e) = yeval R e.
Proof. destruct (mark_cases e) as [->|(o & a & b & i & -> & -> & _)]; reflexivity. Qed.

Lemma mark_subs e : ysubs (mark_inplace e) = ysubs e.
Proof. destruct (mark_cases e) as [->|(o & a & b & i & -> & -> & _)]; reflexivity. Qed.

Lemma mark_fresh X e : yfresh X e -> yfresh X (mark_inplace e).
Proof. destruct (mark_cases e) as [->|(o & a & b & i & -> & -> & _)]; auto. Qed.

Definition unmark1 (e : yarr) : yarr := match e with YBin o a b _ => YBin o a b None | _ => e end.
Lemma unmark1_yeval R e : yeval R (unmark1 e) = yeval R e.
Proof. destruct e; reflexivity. Qed.
Lemma ymap_unmark f e : ymap f e = yrebuild (unmark1 e) (map f (ysubs (unmark1 e))).
Proof. rewrite <- ymap_rebuild; destruct e; reflexivity. Qed.

Lemma ymap_subs f e : ysubs (ymap f e) = map f (ysubs e).
Proof.
  rewrite ymap_unmark. change yrebuild with (@rebuild yarr YOpsT). change ysubs with (@subs yarr YOpsT).
  rewrite subs_rebuild by apply map_length. destruct e; reflexivity.
Qed.

Lemma apply_inplace_yeval R e : req (yeval R (apply_inplace e)) (yeval R e).
Proof.
  revert R. remember (tsize e) as n eqn:Hn. revert e Hn. induction n as [n IH] using lt_wf_ind.
  intros e Hn R. rewrite apply_inplace_eq, mark_yeval, ymap_unmark.
  apply req_trans with (r2 := yeval R (unmark1 e)); [|rewrite unmark1_yeval; apply req_refl].
  set (t := unmark1 e).
  assert (Hc : forall c R, In c (subs t) -> req (yeval R (apply_inplace c)) (yeval R c)).
  { intros c R' Hc. apply (IH (tsize c)); auto. apply tsize_sub in Hc. subst n t. destruct e; simpl in *; lia. }
  clearbody t. clear IH Hn e n.
  change (yrebuild t (map apply_inplace (ysubs t))) with (rebuild t (map apply_inplace (subs t))).
  assert (HL : length (map apply_inplace (subs t)) = length (subs t)) by apply map_length.
  destruct (symof t) as [s|] eqn:Hs.
  { pose proof (symof_subs t s Hs) as (S1 & _). rewrite S1. cbn [map]. rewrite <- S1, rebuild_subs. apply req_refl. }
  assert (R1 : ref (yeval R (rebuild t (map apply_inplace (subs t))))
                   (yeval R (rebuild (rebuild t (map apply_inplace (subs t))) (subs t)))).
  { apply sem_mono.
    + rewrite symof_rebuild; auto.
    + rewrite subs_rebuild; auto.
    + rewrite subs_rebuild, scopes_rebuild by auto. intros k c c' sc l H1 H2 H3 H4 v.
      rewrite nth_error_map, H2 in H1. injection H1 as <-. apply Hc. eapply nth_error_In; eauto. }
  rewrite rebuild_rebuild, rebuild_subs in R1 by auto.
  assert (R2 : ref (yeval R t) (yeval R (rebuild t (map apply_inplace (subs t))))).
  { apply sem_mono; auto. intros k c c' sc l H1 H2 H3 H4 v.
    rewrite nth_error_map, H1 in H2. injection H2 as <-. apply Hc. eapply nth_error_In; eauto. }
  intros v. split; [apply R1|apply R2].
Qed.

Lemma fold_and_map {A} (f : A -> A) (P : A -> Prop) l : Forall (fun x => P x -> P (f x)) l ->
  fold_right and True (map P l) -> fold_right and True (map P (map f l)).
Proof. induction 1; simpl; auto. intros [H1 H2]. auto. Qed.

Lemma fold_and_omap (f : yarr -> yarr) (P : yarr -> Prop) l : Forall (oall (fun x => P x -> P (f x))) l ->
  let Q o := match o with Some y => P y | None => True end in
  fold_right and True (map Q l) -> fold_right and True (map Q (map (option_map f) l)).
Proof.
  intros H. cbv zeta. induction H as [|o l H H' IH]; simpl; auto. intros [H1 H2]. split; auto.
  destruct o; simpl in *; auto.
Qed.

Lemma apply_inplace_fresh e : forall X, yfresh X e -> yfresh X (apply_inplace e).
Proof.
  induction e using yarr_ind'; intros X HF; rewrite apply_inplace_eq; apply mark_fresh; cbn [ymap yfresh] in *;
    try solve [intuition auto].
  all: repeat match goal with H : _ /\ _ |- _ => destruct H end.
  all: repeat match goal with |- _ /\ _ => split end; auto.
  all: try (apply fold_and_map; auto; eapply Forall_impl; [|eassumption]; intros ? HH; simpl in HH; apply HH).
  all: apply (fold_and_omap apply_inplace (yfresh X)); auto; eapply Forall_impl; [|eassumption];
    intros [o|]; simpl; auto.
Qed.

Lemma apply_inplace_sub e n : sub_of n (apply_inplace e) -> exists m, sub_of m e /\ n = apply_inplace m.
Proof.
  remember (tsize e) as k eqn:Hk. revert e Hk. induction k as [k IH] using lt_wf_ind. intros e Hk H.
  inversion H as [t Q|s c t Hc Hsub Q]; subst.
  - exists e. split; auto. constructor.
  - simpl in Hc. rewrite apply_inplace_eq, mark_subs, ymap_subs in Hc. apply in_map_iff in Hc as (c0 & <- & Hc0).
    change (In c0 (subs e)) in Hc0. destruct (IH (tsize c0) (tsize_sub e c0 Hc0) c0 eq_refl Hsub) as (m & M1 & M2).
    exists m. split; auto. eapply sub_step; eauto.
Qed.

Lemma apply_inplace_const e a : apply_inplace e = YConst a -> e = YConst a.
Proof.
  rewrite apply_inplace_eq. destruct (mark_cases (ymap apply_inplace e)) as [->|(o & b & c & i & _ & -> & _)]; [|discriminate].
  destruct e; simpl; congruence.
Qed.

Lemma apply_inplace_bin e o a b i : apply_inplace e = YBin o a b i ->
  (i = None \/ i = Some 0 /\ is_temporary a = true \/ i = Some 1 /\ is_temporary b = true).
Proof.
  rewrite apply_inplace_eq. destruct (mark_cases (ymap apply_inplace e)) as [->|(o' & b' & c & j & E1 & -> & H)].
  - destruct e; simpl; try discriminate. intros H. injection H as <- <- <- <-. auto.
  - intros Q. injection Q as <- <- <- <-. destruct H as [[-> H]|[-> H]]; auto.
Qed.

End Inplace.
