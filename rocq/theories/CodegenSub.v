(** Terms in which loop counters are replaced by indices, and the laws of
    floats that reductions and contractions rely on. *)
From Verif Require Import Base Scalar Tensor Types Sym Phi Den Term PhiTerm DenFree SpecPhi Lining LiningFacts TypesFacts Typing DenWf Naive
  Sizes ClipShift NdOps NdFacts Yarr Axial AxialFacts AxialOps Codegen IndexOps YOps CodegenSafe CodegenGet CodegenCtx Subst.
From Coq Require Import Ring_theory.

Section Sub.
Context {FO : FloatOps} {EX : Externs}.

(** Floats in which sums can be reordered: exact arithmetic.  IEEE floats only
    approximate this; results then agree up to rounding. *)
Record float_laws : Prop := {
  f_ring : ring_theory (f_of_Z 0) (f_of_Z 1) fadd fmul fsub fneg (@eq F);
  f_min_assoc : forall a b c, fmin a (fmin b c) = fmin (fmin a b) c;
  f_min_comm : forall a b, fmin a b = fmin b a;
  f_max_assoc : forall a b c, fmax a (fmax b c) = fmax (fmax a b) c;
  f_max_comm : forall a b, fmax a b = fmax b a
}.

(** Binders and scopes *)
Lemma fresh_not_bound (e : phi) : forall X s, fresh_binders X e -> In s X -> ~ In s (bsyms e).
Proof.
  induction e using phi_ind'; intros X q FB HX K; simpl in FB, K; rewrite ?all_and_Forall in FB;
    repeat match goal with H : _ /\ _ |- _ => destruct H end;
    rewrite ?in_app_iff in K; try contradiction;
    repeat match type of K with
    | _ \/ _ => destruct K as [K|K]
    end; try (subst q; contradiction); try (eapply IHe; eauto; fail); try (eapply IHe1; eauto; fail); try (eapply IHe2; eauto; fail);
    try (eapply IHe3; eauto; fail).
  all: try (apply in_flat_map in K as (o & Ho & K); rewrite Forall_forall in *; match goal with H : forall x, In x _ -> forall X s, _ |- _ => eapply (H o); eauto end; fail).
  all: first [eapply IHe2; [eassumption| |eassumption] | eapply IHe3; [eassumption| |eassumption]]; simpl; auto.
Qed.

Lemma fresh_binders_add (e : phi) : forall X X', fresh_binders X e ->
  (forall s, In s X' -> In s X \/ ~ In s (bsyms e)) -> fresh_binders X' e.
Proof.
  induction e using phi_ind'; intros X X' FB HX; simpl in FB, HX |- *; rewrite ?all_and_Forall in *;
    repeat match goal with H : _ /\ _ |- _ => destruct H end;
    repeat (match goal with |- _ /\ _ => split | |- True => exact I end);
    try (intros K; specialize (HX _ K); rewrite ?in_app_iff in HX; tauto).
  all: try (match goal with IH : forall X X', fresh_binders X ?b -> _ -> fresh_binders X' ?b |- fresh_binders _ ?b =>
    eapply IH; [eassumption|]; intros q Hq; specialize (HX q); simpl in *; rewrite ?in_app_iff in *; tauto end).
  all: try assumption.
  all: rewrite Forall_forall in *; intros o Ho; match goal with H : forall x, In x _ -> forall X X', _ |- _ =>
      apply (H o Ho X X'); [auto|] end; intros q Hq; specialize (HX q Hq);
      destruct (in_dec sym_eq_dec q (bsyms o)) as [B|B]; [|right; exact B];
      left; destruct HX as [HX|HX]; [exact HX|exfalso; apply HX];
      rewrite ?in_app_iff.
  all: try (apply in_flat_map; eauto; fail); try (right; apply in_flat_map; eauto; fail).
  right; right; right; left. apply in_flat_map. eauto.
Qed.

Lemma syms_child (e c : phi) s : In c (subterms e) -> In s (fsyms c) \/ In s (bsyms c) -> In s (fsyms e) \/ In s (bsyms e).
Proof.
  intros Hc [H|H].
  - destruct (fsyms_child e c s Hc H); auto. right. rewrite bsyms_list. apply in_or_app. auto.
  - right. rewrite bsyms_list. apply in_or_app. right. apply in_flat_map. eauto.
Qed.

Lemma scoped_mono (e : phi) : forall G G', scoped G e ->
  (forall s t, In s (fsyms e) \/ In s (bsyms e) -> G s = Some t -> G' s = Some t) -> scoped G' e.
Proof.
  assert (UP : forall (e c : phi) (G G' : tctx) x tx, In c (subterms e) ->
    (forall s t, In s (fsyms e) \/ In s (bsyms e) -> G s = Some t -> G' s = Some t) ->
    forall s t, In s (fsyms c) \/ In s (bsyms c) -> upd G x tx s = Some t -> upd G' x tx s = Some t).
  { intros e0 c G G' x tx Hc H s t Hs Q. destruct (sym_eq_dec s x) as [->|NE].
    - rewrite upd_eq in *. auto.
    - rewrite upd_neq in * by auto. apply H; auto. eapply syms_child; eauto. }
  assert (SC : forall (e c : phi) (G G' : tctx), In c (subterms e) ->
    (forall s t, In s (fsyms e) \/ In s (bsyms e) -> G s = Some t -> G' s = Some t) ->
    forall s t, In s (fsyms c) \/ In s (bsyms c) -> G s = Some t -> G' s = Some t).
  { intros e0 c G G' Hc H s t Hs. apply H. eapply syms_child; eauto. }
  assert (UP2 : forall (e c : phi) (G G' : tctx) x tx y ty, In c (subterms e) ->
    (forall s t, In s (fsyms e) \/ In s (bsyms e) -> G s = Some t -> G' s = Some t) ->
    forall s t, In s (fsyms c) \/ In s (bsyms c) -> upd (upd G x tx) y ty s = Some t -> upd (upd G' x tx) y ty s = Some t).
  { intros e0 c G G' x tx y ty Hc H s t Hs. destruct (sym_eq_dec s y) as [->|NE].
    - rewrite !upd_eq. auto.
    - rewrite !(upd_neq _ y) by auto. eapply UP; eauto. }
  induction e using phi_ind'; intros G G' HS HG; simpl in HS; rewrite ?all_and_Forall in HS; simpl; rewrite ?all_and_Forall.
  - auto.
  - apply HG; simpl; auto.
  - destruct HS as (A & tb & B & D). split; [eapply IHe1; [exact A|]; eapply SC; [|exact HG]; simpl; auto|].
    exists tb. split; auto. eapply IHe2; [exact D|]. eapply UP; [|exact HG]. simpl; auto.
  - destruct HS as (A & B). split; [eapply IHe; [exact A|]; eapply SC; [|exact HG]; simpl; auto|].
    rewrite Forall_forall in *. intros o Ho. eapply H; eauto. eapply SC; [|exact HG]. simpl. auto.
  - eapply IHe; [exact HS|]. eapply SC; [|exact HG]. simpl; auto.
  - destruct HS. split; [eapply IHe1|eapply IHe2]; eauto; (eapply SC; [|exact HG]); simpl; auto.
  - destruct HS. split; [eapply IHe1|eapply IHe2]; eauto; (eapply SC; [|exact HG]); simpl; auto.
  - eapply IHe; [exact HS|]. eapply SC; [|exact HG]. simpl; auto.
  - eapply IHe; [exact HS|]. eapply SC; [|exact HG]. simpl; auto.
  - destruct HS as (A & D). split; [eapply IHe1; [exact A|]; eapply SC; [|exact HG]; simpl; auto|].
    eapply IHe2; [exact D|]. eapply UP; [|exact HG]. simpl; auto.
  - destruct HS as (A & B & ti & T & D). split; [eapply IHe1; [exact A|]; eapply SC; [|exact HG]; simpl; auto|].
    split; [eapply IHe2; [exact B|]; eapply SC; [|exact HG]; simpl; auto|]. exists ti. split; auto.
    eapply IHe3; [exact D|]. eapply UP2; [|exact HG]. simpl; auto.
  - destruct HS as (A & B & ti & T & D). split; [eapply IHe1; [exact A|]; eapply SC; [|exact HG]; simpl; auto|].
    split.
    + rewrite Forall_forall in *. intros o Ho. eapply H; eauto. eapply SC; [|exact HG]. simpl. right. apply in_or_app. auto.
    + exists ti. split; auto. eapply IHe2; [exact D|]. eapply UP2; [|exact HG]. simpl. right. apply in_or_app. simpl; auto.
  - eapply IHe; [exact HS|]. eapply SC; [|exact HG]. simpl; auto.
  - destruct HS. split; [eapply IHe1|eapply IHe2]; eauto; (eapply SC; [|exact HG]); simpl; auto.
  - destruct HS as (?&?&?). split; [|split]; [eapply IHe1|eapply IHe2|eapply IHe3]; eauto; (eapply SC; [|exact HG]); simpl; auto.
  - destruct HS. split; [eapply IHe1|eapply IHe2]; eauto; (eapply SC; [|exact HG]); simpl; auto.
  - rewrite Forall_forall in *. intros o Ho. eapply H; eauto. eapply SC; [|exact HG]. simpl. auto.
Qed.

(** A symbol that occurs neither free nor bound does not matter. *)
Lemma isfree_syms (e : phi) s : isfree s e -> In s (fsyms e) \/ In s (bsyms e).
Proof.
  intros H. destruct (in_dec sym_eq_dec s (bsyms e)) as [|N]; auto. left.
  change (In s (tfree e)). apply isfree_tfree_nb; auto. intros K. apply bound_in_binds in K. auto.
Qed.
Lemma den_irrel (e : phi) (E E' : env) : (forall s, In s (fsyms e) \/ In s (bsyms e) -> E s = E' s) -> den E e = den E' e.
Proof. intros H. apply den_ext. intros s Hs. apply H. apply isfree_syms. auto. Qed.
End Sub.
