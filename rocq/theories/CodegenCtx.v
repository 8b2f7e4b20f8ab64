(** Extending the context of the translation by bound symbols. *)
From Verif Require Import Base Scalar Tensor Types Sym Phi Den Term PhiTerm DenFree SpecPhi Lining TypesFacts Typing DenWf Naive
  Sizes ClipShift NdOps NdFacts Yarr Axial AxialFacts AxialOps Codegen IndexOps YOps CodegenSafe CodegenGet.

Section Ctx.
Context {FO : FloatOps} {EX : Externs} {PO : PadOps}.

Lemma axes_of_cons x ax vax y : axes_of ((x, ax) :: vax) y = if x =? y then ax else axes_of vax y.
Proof. unfold axes_of. simpl. rewrite (Nat.eqb_sym y x). destruct (x =? y); auto. Qed.

(** A variable with value [V]. *)
Lemma ctx_bind N I X r idxs vax E G x ax l V t :
  ctx N I X r idxs vax E G -> ~ In x X -> vrep N I ax l V ->
  (forall s s', (forall i, In i I -> s i = s' i) -> V s = V s') ->
  (forall s, wv N I s -> has_type (V s) t) ->
  ctx N I (x :: X) (upd r (SV x) (pack l)) idxs ((x, ax) :: vax) (fun s => upd (E s) (SV x) (V s)) (upd G (SV x) t).
Proof.
  intros [C1 C2 CB C3 C4 C5 C6 C7 C8] Hx HV HL HT. constructor.
  - intros i Hi HG. rewrite upd_neq in HG by congruence. destruct (C1 i Hi HG) as (y & A & B). exists y. split; auto.
    eapply yok_weaken; eauto; [apply incl_tl, incl_refl|apply agree_upd; auto].
  - intros s s' H. rewrite (C2 s s' H), (HL s s' H). auto.
  - intros i Hi HG. rewrite upd_neq in HG by congruence. destruct (CB i Hi HG). split; auto. simpl. apply in_or_app. auto.
  - intros s i Hs Hi HG. rewrite upd_neq in HG by congruence. rewrite upd_neq by congruence. auto.
  - intros y [<-|Hy].
    + exists l, V. rewrite upd_eq, axes_of_cons, Nat.eqb_refl. split; auto. split; auto. intros s Hs. apply upd_eq.
    + assert (y <> x) by (intros ->; auto). destruct (C4 y Hy) as (l' & V' & A & B & D). exists l', V'.
      rewrite axes_of_cons. destruct (x =? y) eqn:Q; [apply Nat.eqb_eq in Q; congruence|].
      rewrite upd_neq by congruence. split; auto. split; auto. intros s Hs. rewrite upd_neq by congruence. auto.
  - intros y Hy. rewrite axes_of_cons. destruct (x =? y) eqn:Q.
    + apply Nat.eqb_eq in Q. subst. exfalso. apply Hy. left; auto.
    + apply C5. intros K. apply Hy. right; auto.
  - intros s Hs. destruct (sym_eq_dec s (SV x)) as [->|NE]; [left; auto|].
    rewrite upd_neq in Hs by auto. right. apply C6; auto.
  - intros s Hs. apply env_typed_upd; auto.
  - intros s i. rewrite !upd_neq by congruence. apply C8.
Qed.

(** The same with a scalar constant that has no axes and no entry. *)
Lemma ctx_bind_const N I X r idxs vax E G x s0 :
  ctx N I X r idxs vax E G -> ~ In x X ->
  ctx N I (x :: X) (upd r (SV x) (YA (ascalar s0))) idxs vax (fun s => upd (E s) (SV x) (VArr (ascalar s0)))
    (upd G (SV x) (TScalar (skind s0))).
Proof.
  intros C Hx.
  assert (W : arr_wf (ascalar s0)) by (apply ascalar_wf).
  assert (V : vrep N I [] [ascalar s0] (fun _ => VArr (ascalar s0))).
  { split; [constructor|]. split; [intros ? []|]. destruct (rep_const N I _ W) as (_ & _ & rest & k & F).
    eapply vfrep_one with (A := fun _ => ascalar s0); eauto. }
  pose proof (ctx_bind N I X r idxs vax E G x [] [ascalar s0] _ (TScalar (skind s0)) C Hx V) as Q.
  destruct Q as [C1 C2 CB C3 C4 C5 C6 C7 C8]; [auto|intros; apply vscalar_typed|].
  assert (A : forall y, axes_of ((x, []) :: vax) y = axes_of vax y).
  { intros y. rewrite axes_of_cons. destruct (x =? y) eqn:Q; auto. apply Nat.eqb_eq in Q. subst.
    symmetry. apply (c_new _ _ _ _ _ _ _ _ C). auto. }
  constructor; auto.
  - intros y Hy. rewrite <- A. auto.
  - intros y Hy. rewrite <- A. auto.
Qed.

(** An index of size [n]. *)
Lemma ctx_index N I X r idxs vax E G i n ys :
  ctx N I X r idxs vax E G -> ~ In i I -> yok X r ys [ascalar (SI (Z.of_nat n))] ->
  ctx (set_asg N i n) (i :: I) X r ((i, ys) :: idxs) vax
    (fun s => upd (E s) (SX i) (vnat (s i))) (upd G (SX i) (TScalar KInt)).
Proof.
  intros [C1 C2 CB C3 C4 C5 C6 C7 C8] Hi HY.
  assert (HN : forall j, In j I -> N j = set_asg N i n j).
  { intros j Hj. rewrite set_asg_neq; auto. intros ->. auto. }
  assert (HW : forall s, wv (set_asg N i n) (i :: I) s -> wv N I s).
  { intros s Hs. apply wv_N with (N := set_asg N i n); [intros; symmetry; auto|].
    eapply wv_sub; [|exact Hs]. apply incl_tl, incl_refl. }
  constructor.
  - intros j Hj HG. cbn [assoc]. destruct (j =? i) eqn:Q.
    + apply Nat.eqb_eq in Q. subst j. exists ys. rewrite set_asg_eq. auto.
    + apply Nat.eqb_neq in Q. destruct Hj as [->|Hj]; [congruence|]. rewrite upd_neq in HG by congruence.
      rewrite set_asg_neq by auto. apply C1; auto.
  - intros s s' H. rewrite (C2 s s'), (H i); auto; [left; auto|]. intros j Hj. apply H. right; auto.
  - intros j Hj HG. destruct (Nat.eq_dec j i) as [->|NE]; [rewrite upd_eq in HG; discriminate|].
    rewrite upd_neq in HG by congruence. destruct Hj as [->|Hj]; [congruence|]. destruct (CB j Hj HG) as [A B]. split; auto.
    cbn [assoc]. apply Nat.eqb_neq in NE. rewrite NE. auto.
  - intros s j Hs Hj HG. destruct (Nat.eq_dec j i) as [->|NE]; [apply upd_eq|].
    rewrite upd_neq in HG by congruence. rewrite upd_neq by congruence. destruct Hj as [->|Hj]; [congruence|]. auto.
  - intros x Hx. destruct (C4 x Hx) as (l & V & A & B & D). exists l, V. split; auto. split.
    + intros s Hs. rewrite upd_neq by congruence. auto.
    + eapply vrep_N; [exact HN| |exact D]. apply incl_tl, incl_refl.
  - auto.
  - intros s Hs. destruct (sym_eq_dec s (SX i)) as [->|NE]; [apply in_scope_x; left; auto|].
    rewrite upd_neq in Hs by auto. specialize (C6 s Hs). destruct s as [x|j].
    + apply in_scope_v. apply in_scope_v in C6. auto.
    + apply in_scope_x. apply in_scope_x in C6. right; auto.
  - intros s Hs. apply env_typed_upd; auto. apply vint_typed.
  - intros s j Hj. destruct (Nat.eq_dec j i) as [->|NE]; [split; [left; auto|rewrite upd_eq; discriminate]|].
    rewrite upd_neq in Hj by congruence. rewrite upd_neq by congruence. destruct (C8 s j Hj). split; [right|]; auto.
Qed.
End Ctx.
