(** Properties of array code: C20, and C14 and C15 for array code. *)
From Verif Require Import Base Scalar Tensor Types Sym Phi Den NdOps Term PhiTerm Lining Outline Dominators
  InlineMemo GenCheck Yarr YTerm YWf Cancel Sample.

Section Props.
Context {FO : FloatOps} {EX : Externs} {PO : PadOps}.

(** An array is well formed when it has as many elements as its shape says, all
    of its kind. *)
Definition sane_env (R : yenv) : Prop :=
  forall s v, R s = Some v -> match v with YA a => arr_wf a | YT l => Forall arr_wf l end.
Definition sane_externals : Prop :=
  (forall f l a, ext_call f l = Ok a -> arr_wf a) /\
  (forall a p b, arr_wf a -> pad_call a p = Ok b -> arr_wf b).

(** * C20 *)

Theorem C20_shape_cancellation (e : yarr) (R : yenv) (v : yval) :
  sane_externals -> sane_env R -> (forall a, sub_of (YConst a) e -> arr_wf a) ->
  yeval R e = Ok v -> yeval R (cancel_shape_ops e) = Ok v.
Proof. intros [X P] W C. exact (cancel_shape_better X P e R W C v). Qed.

Theorem C20_tuple_cancellation (e : yarr) (R : yenv) (v : yval) :
  sane_externals -> sane_env R -> (forall a, sub_of (YConst a) e -> arr_wf a) ->
  yeval R e = Ok v -> yeval R (cancel_tuple_ops e) = Ok v.
Proof. intros [X P] W C. exact (cancel_tuple_better X P e R W C v). Qed.

(** The types are kept as well, so the rewritten expression can be built. *)
Theorem C20_types (e : yarr) (t : pty) :
  ytyp e = Ok t -> ytyp (cancel_shape_ops e) = Ok t /\ ytyp (cancel_tuple_ops e) = Ok t.
Proof. intros H. split; [exact (cancel_shape_typ e t H)|exact (cancel_tuple_typ e t H)]. Qed.

(** * C14 and C15 on array code *)

Theorem C14_array_inline (only_renames : bool) (p : yarr) (R : yenv) (v : yval) :
  distinct_binders p -> yeval R p = Ok v -> yeval R (inline_memo only_renames p) = Ok v.
Proof.
  intros D H. rewrite inline_memo_eq by auto. eapply inline_sem; eauto. apply distinct_noshadow; auto.
Qed.

Theorem C14_array_inline_removes_lets (p : yarr) :
  distinct_binders p -> forall x b body, ~ sub_of (YLet x b body) (inline_memo false p).
Proof.
  intros D x b body H. rewrite inline_memo_eq in H by auto. apply inline_nolet in H. discriminate.
Qed.

Theorem C15_array_insertion_sound (p : yarr) (ins : list (yarr * list (nat * yarr))) (R : yenv) (v : yval) :
  ins_wf p ins -> distinct_binders p ->
  yeval R (apply_insertions p ins) = Ok v -> yeval R p = Ok v.
Proof. intros W D. exact (apply_insertions_sound p ins W (distinct_unshadowed p D) R v). Qed.

Theorem C15_array_common_subexpressions (p : yarr) (nxt : nat) (R : yenv) (v : yval) :
  distinct_binders p -> above nxt p ->
  yeval R (apply_insertions p (fst (bind_common_subexpressions (idom_of p) nxt p))) = Ok v ->
  yeval R p = Ok v.
Proof.
  intros D A. apply apply_insertions_sound; [|apply distinct_unshadowed; auto].
  apply cse_wf; auto; [apply distinct_unshadowed; auto|]. intros. apply idom_of_spec; auto.
Qed.

Theorem C15_array_loop_invariant_code (p : yarr) (nxt : nat) (R : yenv) (v : yval) :
  unshadowed p -> above nxt p ->
  yeval R (apply_insertions p (fst (loop_invariant_code_motion nxt p))) = Ok v ->
  yeval R p = Ok v.
Proof.
  intros U A. apply apply_insertions_sound; auto. apply licm_wf; auto. apply unshadowed_hygienic; auto.
Qed.

End Props.

(** * Examples, over integers as floats *)

(** Array code with an identity transpose, empty axis changes, and projections
    out of explicit tuples, inside a fold. *)
Definition c20_prog : @yarr zfloat :=
  YFold 1 (YConst (@ascalar zfloat (SI 3%Z))) 2 (YVar 0 [(1, KFloat)])
    (YUntuple 0 2 (YTuple [YBin BAdd (YTranspose [0] (YUnsqueeze [] (YVar 2 [(1, KFloat)])))
                                     (YSqueeze [0] (YUnsqueeze [0] (YVar 0 [(1, KFloat)]))) None;
                           YSqueeze [] (YVar 1 [(0, KInt)])])).
Definition c20_env : @yenv zfloat := upd (fun _ => None) (SV 0) (YA (farr [2] [5; 7]%Z)).

Example C20_example :
  @yeval zfloat no_externs edge_pads c20_env c20_prog = Ok (YA (farr [2] [20; 28]%Z)) /\
  cancel_shape_ops c20_prog <> c20_prog /\
  cancel_tuple_ops (cancel_shape_ops c20_prog) =
    YFold 1 (YConst (@ascalar zfloat (SI 3%Z))) 2 (YVar 0 [(1, KFloat)])
      (YBin BAdd (YVar 2 [(1, KFloat)]) (YSqueeze [0] (YUnsqueeze [0] (YVar 0 [(1, KFloat)]))) None) /\
  @yeval zfloat no_externs edge_pads c20_env (cancel_tuple_ops (cancel_shape_ops c20_prog)) =
    Ok (YA (farr [2] [20; 28]%Z)) /\
  @sane_externals zfloat no_externs edge_pads /\ @sane_env zfloat c20_env /\
  (forall a, sub_of (YConst a) c20_prog -> arr_wf a).
Proof.
  split; [vm_compute; reflexivity|]. split; [vm_compute; congruence|].
  split; [vm_compute; reflexivity|]. split; [vm_compute; reflexivity|]. split; [|split].
  - split; [intros ? ? ? H; discriminate|]. intros a p b W H. eapply nd_edge_pad_wf; eauto.
  - intros s v H. unfold c20_env, upd in H. destruct (sym_eqb s (SV 0)); [|discriminate].
    injection H as <-. vm_compute. repeat constructor.
  - intros a H. apply gnodes_spec in H. vm_compute in H.
    repeat (destruct H as [H|H]; [try discriminate; injection H as <-; vm_compute; repeat constructor|]).
    destruct H.
Qed.

(** A transpose that moves axes stays. *)
Example C20_transpose_kept :
  cancel_shape_ops (FO := zfloat) (YTranspose [1; 0] (YVar 0 [(2, KFloat)])) = YTranspose [1; 0] (YVar 0 [(2, KFloat)]).
Proof. reflexivity. Qed.

(** (x*x) + (x*x) shares the product; a product of loop-invariant arrays leaves
    the loop; and inlining undoes both. *)
Example C15_array_example :
  let fv x := YVar x [(1, KFloat)] in
  let sq := YBin BMul (fv 0) (fv 0) None in
  let p := YBin BAdd sq sq None : @yarr zfloat in
  let q := YFold 1 (YConst (@ascalar zfloat (SI 3%Z))) 2 (fv 0) (YBin BAdd (fv 2) sq None) in
  let p' := apply_insertions p (fst (bind_common_subexpressions (idom_of p) 3 p)) in
  let q' := apply_insertions q (fst (loop_invariant_code_motion 3 q)) in
  p' = YLet 3 sq (YBin BAdd (fv 3) (fv 3) None) /\
  q' = YLet 3 sq (YFold 1 (YConst (@ascalar zfloat (SI 3%Z))) 2 (fv 0) (YBin BAdd (fv 2) (fv 3) None)) /\
  inline_memo false p' = p /\ inline_memo false q' = q /\
  @yeval zfloat no_externs edge_pads c20_env q' = Ok (YA (farr [2] [80; 154]%Z)) /\
  @yeval zfloat no_externs edge_pads c20_env q = Ok (YA (farr [2] [80; 154]%Z)) /\
  distinct_binders p /\ above 3 p /\ distinct_binders q' /\ above 3 q.
Proof.
  cbv zeta. repeat (split; [vm_compute; reflexivity|]).
  split; [apply gdistinctb_sound; vm_compute; reflexivity|].
  split; [apply gaboveb_sound; vm_compute; reflexivity|].
  split; [apply gdistinctb_sound; vm_compute; reflexivity|].
  apply gaboveb_sound; vm_compute; reflexivity.
Qed.

Print Assumptions C20_shape_cancellation.
Print Assumptions C20_tuple_cancellation.
Print Assumptions C20_types.
Print Assumptions C14_array_inline.
Print Assumptions C14_array_inline_removes_lets.
Print Assumptions C15_array_insertion_sound.
Print Assumptions C15_array_common_subexpressions.
Print Assumptions C15_array_loop_invariant_code.
