(** The translation to array code is correct: phi_to_yarr.py:41-292. *)
From Verif Require Import Base Scalar Tensor Types Sym Phi Den Term PhiTerm DenFree SpecPhi Lining TypesFacts Typing DenWf Naive
  Sizes ClipShift NdOps NdFacts Yarr Axial AxialFacts AxialOps Codegen IndexOps YOps CodegenSafe CodegenGet CodegenCtx CodegenCases
  CodegenAxes CodegenCorrect CodegenSub CodegenRed CodegenEin CodegenReduce.

Section Go.
Context {FO : FloatOps} {EX : Externs} {PO : PadOps}.
Variable fl : flags.
Variable orc : oracle.
Variable padk : kind -> bool.
Variable pade : bool.

Hypothesis PAD : pad_spec padk pade.
Hypothesis STR : strict fl = true.
Hypothesis EIN : use_einsum fl = true -> float_laws.
Hypothesis RED : use_reductions fl = true -> float_laws.

(** The translation computes, at every position of the axes, the value of the
    term there. *)
Theorem go_correct fuel : rec_spec fl orc padk pade (go fl orc fuel).
Proof.
  induction fuel as [|fuel REC]; intros N I X r idxs vax E G e a H C Hg; [discriminate|].
  pose proof (fun e a He Ge => REC N I X r idxs vax E G e a He C Ge) as REC1. cbv beta in REC1.
  cbn [go] in H. destruct e.
  - eapply case_const; eauto.
  - destruct s; [eapply case_var|eapply case_index]; eauto.
  - eapply case_let; eauto.
  - destruct (REC1 _ _ H (good_assert _ _ _ _ _ _ _ _ _ _ _ Hg)) as (l & Y & V). exists l. split; auto.
    eapply vrep_ext; [|exact V]. intros s Hs. cbv beta. destruct (g_den _ _ _ _ _ _ _ _ _ _ Hg s Hs) as (v & D).
    rewrite (dval_ok _ _ _ D). cbn [den] in D. do 3 (apply bind_ok in D as (? & _ & D)). apply dval_ok; auto.
  - apply bind_ok in H as (x & Hx & H). eapply case_dim; eauto. apply REC1; auto. eapply good_dimterm; eauto.
  - eapply transform_get_ok; eauto.
  - apply bind_ok in H as (x & Hx & H). apply bind_ok in H as (y & Hy & H). apply bind_ok in H as (u & SA & H).
    apply guard_ok in SA. rewrite STR in SA. cbn [negb orb] in SA. destruct (good_cons _ _ _ _ _ _ _ _ _ _ _ Hg). eapply case_cons; eauto.
  - apply bind_ok in H as (t & Ht & H). destruct t; try discriminate. apply bind_ok in H as (p & Hp & H).
    apply bind_ok in H as (x & Hx & H). eapply case_first; eauto. apply REC1; auto. eapply good_first; eauto.
  - apply bind_ok in H as (t & Ht & H). destruct t; try discriminate. apply bind_ok in H as (p & Hp & H).
    apply bind_ok in H as (q & Hq & H).
    apply bind_ok in H as (x & Hx & H). eapply case_second; eauto. apply REC1; auto. eapply good_second; eauto.
  - eapply case_vec; eauto.
  - apply bind_ok in H as (ein & Hein & H). destruct ein as [a'|].
    { injection H as ->. destruct (use_einsum fl) eqn:EE; [|discriminate].
      eapply case_einsum with (rec := go fl orc fuel); eauto. intros idxs0 vax0 e0 a0 H0. eapply go_axes; eauto. }
    apply bind_ok in H as (red & Hred & H). destruct red as [a'|].
    + injection H as ->. destruct (use_reductions fl) eqn:RE; [|discriminate].
      eapply case_reduction with (rec := go fl orc fuel); eauto.
    + eapply case_fold with (rec := go fl orc fuel); eauto. intros vax0 a0 H0. eapply go_axes; eauto.
  - eapply case_reduce with (rec := go fl orc fuel); eauto. intros vax0 a0 H0. eapply go_axes; eauto.
  - pose proof (good_un _ _ _ _ _ _ _ _ _ _ _ Hg) as Ga.
    destruct o; apply bind_ok in H as (x & Hx & H); try (eapply case_un; eauto; fail). eapply case_cast; eauto.
  - apply bind_ok in H as (x & Hx & H). apply bind_ok in H as (y & Hy & H).
    destruct (good_bin _ _ _ _ _ _ _ _ _ _ _ _ Hg). eapply case_bin; eauto.
  - apply bind_ok in H as (z & Hz & H). apply bind_ok in H as (x & Hx & H). apply bind_ok in H as (y & Hy & H).
    destruct (good_where _ _ _ _ _ _ _ _ _ _ _ _ Hg) as (? & ? & ?). eapply case_where; eauto.
  - apply bind_ok in H as (x & Hx & H). apply bind_ok in H as (y & Hy & H).
    destruct (good_concat _ _ _ _ _ _ _ _ _ _ _ Hg). eapply case_concat; eauto.
  - apply bind_ok in H as (xs & Hxs & H). rewrite STR in H. cbn [negb orb] in H. eapply case_ext; eauto.
    apply mapM_Forall2 in Hxs. pose proof (good_ext_parts _ _ _ _ _ _ _ _ _ _ _ _ Hg) as Gs.
    revert Gs. clear - REC1 Hxs. induction Hxs; intros Gs; inversion Gs; subst; constructor; auto.
Qed.
End Go.
