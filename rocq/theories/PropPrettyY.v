(** Property C49: what the pretty printer prints for array code. *)
From Coq Require Import Ascii String.
From Verif Require Import Base Scalar Tensor Types Sym Phi Den Term PhiTerm SpecPhi Lining Outline Dominators InlineMemo OutlinePass OutlineTotal OutlineBinders OutlineHeads Checkers GenCheck Soa
  NdOps Yarr YTerm Pretty PrettyY Sample PropOutline.

Section Props.
Context {FO : FloatOps}.

Theorem C49_array_width (N : ynames) (nxt : nat) (e : yarr) (w i w' i' : nat) t t' :
  pretty_yarr N nxt e w i = Ok t -> pretty_yarr N nxt e w' i' = Ok t' -> dense t = dense t'.
Proof.
  unfold pretty_yarr. intros H H'. apply bind_ok in H as (q & Hq & H). rewrite Hq in H'. cbn [bind] in H'.
  rewrite (render_dense _ _ _ _ _ H), (render_dense _ _ _ _ _ H'). reflexivity.
Qed.

(** The text shows every part of the code, at its place, whole and one after the
    other. *)
Theorem C49_array_parts (N : ynames) (e : yarr) (par : bool) : woven (yparts N e) (pieces (ypretty N e par)).
Proof. apply yparts_woven. Qed.

(** Every bracket is closed; in parentheses, no blank is outside of brackets. *)
Theorem C49_array_brackets (N : ynames) (e : yarr) (par : bool) :
  (forall a, tight (ys_const N a)) -> (forall x, tight (ys_var N x)) -> (forall e, balanced (ys_type N e)) ->
  (forall k, tight (ys_num N k)) -> (forall l, tight (ys_axes N l)) -> (forall k, tight (ys_kind N k)) ->
  (forall o, tight (ys_un N o)) -> (forall o, tight (ys_bin N o)) -> tight (ys_where N) -> (forall r, tight (ys_red N r)) ->
  (forall e, tight (ys_other N e)) ->
  balanced (pieces (ypretty N e par)) /\ tight (pieces (ypretty N e true)).
Proof. intros. destruct (ypretty_brackets N) with (e := e) as [B H']; auto. Qed.

(** Outlining adds no tuple. *)
Definition not_unit (n : yarr) : Prop := match n with YTuple [] => False | _ => True end.
Lemma unit_head : head_prop not_unit.
Proof.
  constructor; [|intros; exact I|intros; exact I]. intros t cs L H. change (not_unit (yrebuild t cs)). change (length cs = length (ysubs t)) in L.
  destruct t; simpl in *; auto; try (destruct cs as [|? [|? [|? [|? ?]]]]; simpl in *; auto; discriminate).
  destruct ops; [destruct H|]. destruct cs; [discriminate|exact I].
Qed.
Lemma heads_no_empty (e : yarr) : (forall n, sub_of n e -> not_unit n) -> no_empty e.
Proof.
  assert (ST : forall (c e n : yarr), In c (ysubs e) -> sub_of n c -> sub_of n e) by (intros c e0 n Hc Hn; eapply sub_step; [exact Hc|exact Hn]).
  assert (OS : forall (l : list (option yarr)) c, In (Some c) l -> In c (somes l)).
  { induction l as [|o l IH]; intros c Hc; [destruct Hc|]. destruct Hc as [->|Hc]; simpl; auto. destruct o; simpl; auto. }
  induction e using yarr_ind'; intros HH; cbn [no_empty]; auto.
  all: repeat split.
  all: try (first [apply IHe|apply IHe1|apply IHe2|apply IHe3]; intros n Hn; apply HH; eapply ST; [|exact Hn]; simpl; auto 8; fail).
  all: try (match goal with |- fold_right _ _ _ => apply ands_all; rewrite Forall_forall; intros o Ho end).
  all: try (match goal with |- match ?o with _ => _ end => destruct o as [c|]; [|exact I];
    match goal with F : Forall (oall _) ?l, K : In (Some c) ?l |- _ => rewrite Forall_forall in F; apply (F _ K) end;
    intros n Hn; apply HH; eapply ST; [|exact Hn]; simpl; right; rewrite ?in_app_iff; auto end).
  - intros ->. exact (HH _ (sub_refl _)).
  - rewrite Forall_forall in H. apply H; auto. intros n Hn. apply HH. eapply ST; [|exact Hn]. exact Ho.
  - apply IHe. intros m Hm. apply HH. eapply ST; [|exact Hm]. simpl. auto.
Qed.

(** Printing does not fail, if no constant, variable, axis or unknown term is
    blank, no tuple is empty and outlining succeeds ([C39_array_succeeds]). *)
Theorem C49_array_prints (N : ynames) (e : yarr) (nxt width indent : nat) :
  (forall a, dense (ys_const N a) <> []) -> (forall x, dense (ys_var N x) <> []) -> (forall k, dense (ys_num N k) <> []) ->
  (forall l, dense (ys_axes N l) <> []) -> (forall e, dense (ys_other N e) <> []) ->
  distinct_binders e -> above nxt e -> (forall s, isfree s e -> isfree s (inline_memo false e)) -> ~ sub_of (YTuple []) e ->
  exists t, pretty_yarr N nxt e width indent = Ok t.
Proof.
  intros VC VV VN VA VO D A F U. destruct (proj2 (C39_array_succeeds e nxt D A) F) as (q & Q).
  assert (HH : heads not_unit q).
  { apply (outline_heads not_unit unit_head nxt e q D A Q). intros n Hn. destruct n; try exact I. destruct ops; [exact (U Hn)|exact I]. }
  unfold pretty_yarr. rewrite Q. cbn [bind]. apply render_solid.
  apply (ypretty_fine N VC VV VN VA VO q false (heads_no_empty q HH)).
Qed.

(** An empty tuple prints nothing, and a block that prints nothing is an error. *)
Theorem C49_empty_tuple_refuted : exists e : yarr, forall N nxt w i, pretty_yarr N nxt e w i = Err EValue.
Proof.
  exists (YUn UNeg (YTuple [])). intros N nxt w i. unfold pretty_yarr.
  assert (Q : outline nxt (YUn UNeg (YTuple [])) = Ok (YUn UNeg (YTuple []))) by (vm_compute; reflexivity).
  rewrite Q. reflexivity.
Qed.

End Props.

(** let &0 = add(&1, 1) in (slice(&0, 1, None, size[0](&0), None)).0, printed in 80
    and in 12 columns *)
Section Samples.
#[local] Existing Instance zfloat.
Definition ynames0 : ynames :=
  mkYNames (fun _ => T "1") (fun x => match x with 3 => T "&0" | _ => T "&1" end) (fun _ => T "int[0]") (fun _ => T "0") (fun _ => T "(0, 1)")
    (fun _ => T "int") (fun _ => T "neg") (fun _ => T "add") (T "where") (fun _ => T "add") (fun _ => T "?").
Definition ycode0 : yarr :=
  YLet 3 (YBin BAdd (YVar 4 [(1, KInt)]) (YConst (ascalar (SI 1))) (Some 0))
    (YUntuple 0 1 (YTuple [YSlice (YVar 3 [(1, KInt)]) [Some (YConst (ascalar (SI 1))); None] [Some (YDim 0 (YVar 3 [(1, KInt)])); None]])).
Example C49_array_example :
  render (ypretty ynames0 ycode0 false) 80 2 0 =
    Ok (T "let &0: int[0] = add(&1, 1) in" ++ [nl] ++ T "(slice(&0, 1, None, size[0](&0), None)).0") /\
  render (ypretty ynames0 ycode0 true) 12 2 0 =
    Ok (T "(let &0: int[0] = " ++ [nl] ++ T "  add(&1, 1)" ++ [nl] ++ T "in" ++ [nl] ++ T "(" ++ [nl] ++
        T "  slice(&0, 1, None, " ++ [nl] ++ T "    size[0](&0)" ++ [nl] ++ T "  , None)" ++ [nl] ++ T ").0)") /\
  distinct_binders ycode0 /\ above 5 ycode0 /\ ~ sub_of (YTuple []) ycode0 /\
  (forall s, isfree s ycode0 -> isfree s (inline_memo false ycode0)).
Proof.
  assert (D : distinct_binders ycode0) by (apply gdistinctb_sound; vm_compute; reflexivity).
  assert (A : above 5 ycode0) by (apply gaboveb_sound; vm_compute; reflexivity).
  split; [vm_compute; reflexivity|]. split; [vm_compute; reflexivity|]. split; [exact D|]. split; [exact A|]. split.
  - intros H. apply gnodes_spec in H. assert (B : forallb (fun n => match n with YTuple [] => false | _ => true end) (gnodes ycode0) = true) by (vm_compute; reflexivity).
    rewrite forallb_forall in B. apply B in H. discriminate.
  - apply (proj1 (C39_array_succeeds ycode0 5 D A)). eexists. vm_compute. reflexivity.
Qed.
End Samples.

Print Assumptions C49_array_width.
Print Assumptions C49_array_parts.
Print Assumptions C49_array_brackets.
Print Assumptions C49_array_prints.
Print Assumptions C49_empty_tuple_refuted.
