(** phi_to_yarr.py:308-310: the whole translation, from an empty context. *)
From Verif Require Import Base Scalar Tensor Types Sym Phi Den Term PhiTerm DenFree SpecPhi Lining TypesFacts Typing DenWf Naive
  Sizes ClipShift NdOps NdFacts Yarr Axial AxialFacts AxialOps Codegen IndexOps YOps CodegenSafe CodegenGet CodegenCtx
  CodegenCases CodegenAxes CodegenCorrect CodegenSub CodegenGo FastPad.

Section Compile.
Context {FO : FloatOps} {EX : Externs}.

(** phi_to_yarr.py:310, before the cancellations *)
Definition lower (fl : flags) (orc : oracle) (fuel : nat) (e : phi) : res yarr :=
  let* a := go fl orc fuel [] [] e in normal a.

Lemma frep_scalar_family N a : arr_wf a -> frep N [] all_axes [] (ashape a) (akind a) a (fun _ => a).
Proof. intros W. constructor; auto. Qed.

Lemma vleaves_wf v : val_wf v -> Forall arr_wf (vleaves v).
Proof. induction v; simpl; [intros W; repeat constructor; apply W|]. intros []. apply Forall_app. auto. Qed.

Lemma vrep_closed N v : val_wf v -> vrep N [] [] (vleaves v) (fun _ => v).
Proof.
  intros W. split; [constructor|]. split; [intros ? []|]. split; auto.
  intros j Hj. apply vleaves_wf in W. exists (ashape (nth j (vleaves v) dleaf)), (akind (nth j (vleaves v) dleaf)).
  unfold leaf. apply frep_scalar_family. rewrite Forall_forall in W. apply W. apply nth_In. auto.
Qed.

Lemma vrep_closed_inv N l v : vrep N [] [] l (fun _ => v) -> l = vleaves v.
Proof.
  intros (_ & _ & L & H). specialize (L _ (wv_zero N [])). apply nth_ext with (d := dleaf) (d' := dleaf); [auto|].
  intros j Hj. destruct (H j Hj) as (rest & k & F). destruct F as [F1 F2 F3 F4 F5].
  destruct (F4 _ (wv_zero N [])) as (W & K & S). unfold leaf in *. simpl in F3.
  apply arr_ext; auto; [congruence|congruence|].
  intros idx Hi. rewrite F3 in Hi. apply (F5 _ (wv_zero N []) (fun i (q : In i []) => match q with end) idx Hi).
Qed.

Section Top.
Context {PO : PadOps}.
Variable fl : flags.
Variable orc : oracle.
Variable padk : kind -> bool.
Variable pade : bool.
Hypothesis PAD : pad_spec padk pade.
Hypothesis STR : strict fl = true.
Hypothesis EIN : use_einsum fl = true -> float_laws.
Hypothesis RED : use_reductions fl = true -> float_laws.

Theorem lower_correct fuel e y (G : tctx) (E : env) (r : yenv) X t v :
  lower fl orc fuel e = Ok y ->
  typ e = Ok t -> scoped G e -> int_indices e -> exts_ok e -> fresh_binders (map SV X) e ->
  (forall s, G s <> None -> exists x, s = SV x /\ In x X) ->
  (forall i, E (SX i) = None) ->
  (forall x, In x X -> exists u, E (SV x) = Some u /\ val_wf u /\ r (SV x) = Some (pack (vleaves u))) ->
  env_typed G E ->
  safe_all fl orc padk pade (fun _ => 1) E e ->
  den E e = Ok v ->
  yeval r y = Ok (pack (vleaves v)) /\ ytyp y = Ok (map aty (vleaves v)).
Proof.
  intros H T SC II EO FB DOM NX ARGS ET SF D. unfold lower in H. apply bind_ok in H as (a & Ha & H).
  unfold normal in H. destruct (ax_axes a) eqn:AX; [|discriminate]. injection H as <-.
  assert (C : ctx (fun _ => 1) [] X r [] [] (fun _ => E) G).
  { constructor; auto.
    - intros ? [].
    - intros ? ? ? [].
    - intros x Hx. destruct (ARGS x Hx) as (u & EU & WU & RU). exists (vleaves u), (fun _ => u). split; auto. split; auto.
      apply vrep_closed; auto.
    - intros s Hs. destruct (DOM s Hs) as (x & -> & Hx). apply in_scope_v. auto.
    - intros _ i Hi. destruct Hi. auto. }
  assert (Gd : good fl orc padk pade G (fun _ => 1) [] X (fun _ => E) e).
  { constructor; eauto. unfold in_scope. simpl. rewrite app_nil_r. auto. }
  destruct (go_correct fl orc padk pade PAD STR EIN RED fuel _ _ _ _ _ _ _ _ _ _ Ha C Gd) as (l & (Y & TY) & V).
  rewrite AX in V.
  assert (L : l = vleaves v).
  { apply vrep_closed_inv with (N := fun _ => 1). eapply vrep_ext; [|exact V]. intros s Hs. apply dval_ok. auto. }
  subst l. split; auto. apply Y. intros ? ?; auto.
Qed.
End Top.

(** The reference pad. *)
Lemma ref_pad_spec : @pad_spec FO nd_edge_pad (fun _ => true) true.
Proof. intros a u n v l r _ _ _ _ _ _ _. reflexivity. Qed.

(** NumPy's. *)
Lemma numpy_pad_spec garbage : @pad_spec FO (fast_edge_pad garbage) (kind_eqb KFloat) false.
Proof.
  intros a u n v l r W S Hn Hl Hr K [Q|P]; [discriminate|]. apply fast_one_axis with (n := n); auto.
  destruct (akind a); auto; discriminate.
Qed.
End Compile.
