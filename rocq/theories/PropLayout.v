(** Property C25: layouts and the types they match (layout.py:15-70). *)
From Verif Require Import Base Scalar Tensor Types Sym Phi Den Typing DenWf Layout Frontend Sample.

(** [nested ts t]: the type of a structure with components of types [ts]. *)
Inductive nested : list ty -> ty -> Prop :=
| nested_one t : nested [t] t
| nested_more t u ts : nested ts u -> nested (t :: ts) (TPair t u).

Lemma lmatch_pos ls t : lmatch (LPos ls) t = true <-> exists ts, nested ts t /\ Forall2 (fun l t => lmatch l t = true) ls ts.
Proof.
  revert t. induction ls as [|l ls IH]; intros t; [|rewrite lmatch_pos_eq; destruct ls as [|l' ls]].
  - split; [discriminate|]. intros (ts & N & F). inversion F; subst. inversion N.
  - split; [intros H; exists [t]; split; constructor; auto|]. intros (ts & N & F).
    inversion F as [|? ? ? ? H1 H2]; subst. inversion H2; subst. inversion N as [|? ? ? N']; subst; auto. inversion N'.
  - split.
    + destruct t as [| |a b]; try discriminate. intros H. apply andb_true_iff in H as [H1 H2].
      apply IH in H2 as (ts & N & F). exists (a :: ts). split; constructor; auto.
    + intros (ts & N & F). inversion F as [|? ? ? ? H1 H2]; subst. inversion N; subst; [inversion H2|].
      apply andb_true_iff. split; auto. apply IH. eauto.
Qed.
Lemma lmatch_lab ls tag t : lmatch (LLab ls tag) t = lmatch (LPos (map snd ls)) t.
Proof.
  revert t. induction ls as [|[n l] ls IH]; intros t; [reflexivity|]. destruct ls as [|[n' l'] ls]; [reflexivity|].
  specialize (IH (match t with TPair _ b => b | _ => t end)). simpl in *. destruct t; auto. f_equal. exact IH.
Qed.

(** What a layout matches: any scalar, any array, and a structure component by
    component; names and dataclasses do not matter. *)
Theorem C25_match :
  (forall t, lmatch LAtom t = true <-> exists k, t = TScalar k) /\
  (forall sub t, lmatch (LVec sub) t = true <-> exists e, t = TVec e) /\
  (forall ls t, lmatch (LPos ls) t = true <-> exists ts, nested ts t /\ Forall2 (fun l t => lmatch l t = true) ls ts) /\
  (forall ls tag t, lmatch (LLab ls tag) t = true <->
     exists ts, nested ts t /\ Forall2 (fun p t => lmatch (snd p) t = true) ls ts).
Proof.
  split; [intros [k|e|a b]; simpl; split; try discriminate; eauto; intros [? ?]; discriminate|].
  split; [intros sub [k|e|a b]; simpl; split; try discriminate; eauto; intros [? ?]; discriminate|].
  split; [exact lmatch_pos|]. intros ls tag t. rewrite lmatch_lab, lmatch_pos.
  split; intros (ts & N & F); exists ts; split; auto; clear N.
  - revert ts F. induction ls; intros ts F; inversion F; subst; constructor; auto.
  - induction F; constructor; auto.
Qed.

(** The layout inferred for a type matches it. *)
Theorem C25_unambiguous t l : unambiguous_layout t = Ok l -> lmatch l t = true.
Proof. destruct t as [k|e|a b]; cbn [unambiguous_layout]; intros H; [injection H as <-; reflexivity| |discriminate]. apply bind_ok in H as (s & _ & H). injection H as <-. reflexivity. Qed.

Section Props.
Context {FO : FloatOps} {EX : Externs}.
Variable dict_attr : nat -> bool.

(** Every array in a structure has a type its own layout matches. *)
Fixpoint leaves_match (o : obj) : Prop :=
  match o with
  | OArr e l => exists t, typ e = Ok t /\ lmatch l t = true
  | ORaw _ => True
  | OTup l | OList l => fold_right and True (map leaves_match l)
  | ODict l | OData _ l => fold_right and True (map (fun p => leaves_match (snd p)) l)
  end.

Lemma reduce_nested es : forall e t, reduce_cons es = Ok e -> typ e = Ok t ->
  exists ts, Forall2 (fun e t => typ e = Ok t) es ts /\ nested ts t.
Proof.
  induction es as [|a es IH]; intros e t R T; [discriminate|]. destruct es as [|b es].
  - injection R as ->. exists [t]. split; constructor; auto.
  - cbn [reduce_cons] in R. apply bind_ok in R as (r & R & Q). injection Q as <-.
    cbn [typ] in T. apply bind_ok in T as (u & U & T). apply bind_ok in T as (w & W & T). injection T as <-.
    destruct (IH r w R W) as (ts & F & N). exists (u :: ts). split; constructor; auto.
Qed.

Definition pmatch (o : obj) : Prop := obj_ok dict_attr o -> leaves_match o -> forall l e t, build_layout o = Ok l ->
  struct_to_expr dict_attr l o = Ok e -> typ e = Ok t -> lmatch l t = true.

Lemma pos_match os : Forall pmatch os -> Forall (obj_ok dict_attr) os -> Forall leaves_match os -> forall ls es e t,
  mapM build_layout os = Ok ls -> s2e_pos dict_attr ls os = Ok es -> reduce_cons es = Ok e -> typ e = Ok t -> lmatch (LPos ls) t = true.
Proof.
  intros IH OK LM ls es e t B S R T. apply lmatch_pos. destruct (reduce_nested es e t R T) as (ts & F & N).
  exists ts. split; auto. clear R T N e t. revert ls es ts B S F.
  induction os as [|o os IHo]; intros ls es ts B S F; cbn [mapM] in B.
  - injection B as <-. cbn in S. injection S as <-. inversion F; constructor.
  - apply bind_ok in B as (l & B1 & B). apply bind_ok in B as (ls' & B2 & B). injection B as <-.
    cbn in S. apply bind_ok in S as (e & S1 & S). apply bind_ok in S as (es' & S2 & S). injection S as <-.
    inversion F; subst. inversion IH; inversion OK; inversion LM; subst. constructor; eauto.
Qed.

Lemma lab_match o os : Forall (fun p => pmatch (snd p)) os -> Forall (fun p => obj_ok dict_attr (snd p)) os ->
  Forall (fun p => leaves_match (snd p)) os -> (forall p, In p os -> get_name dict_attr (fst p) o = Ok (snd p)) -> forall ls es e t,
  mapM (fun p => let* s := build_layout (snd p) in Ok (fst p, s)) os = Ok ls ->
  mapM (fun p => let* x := get_name dict_attr (fst p) o in struct_to_expr dict_attr (snd p) x) ls = Ok es ->
  reduce_cons es = Ok e -> typ e = Ok t -> lmatch (LPos (map snd ls)) t = true.
Proof.
  intros IH OK LM GN ls es e t B S R T. apply lmatch_pos. destruct (reduce_nested es e t R T) as (ts & F & N).
  exists ts. split; auto. clear R T N e t. revert ls es ts B S F.
  induction os as [|[n x] os IHo]; intros ls es ts B S F; cbn [mapM fst snd] in B.
  - injection B as <-. cbn in S. injection S as <-. inversion F; constructor.
  - apply bind_ok in B as (l & B1 & B). apply bind_ok in B1 as (s & B1 & Q). injection Q as <-.
    apply bind_ok in B as (ls' & B2 & B). injection B as <-. cbn [mapM fst snd] in S.
    apply bind_ok in S as (e & S1 & S). apply bind_ok in S1 as (x' & G & S1). apply bind_ok in S as (es' & S2 & S). injection S as <-.
    pose proof (GN (n, x) (or_introl eq_refl)) as G0. cbn [fst snd] in G0. rewrite G0 in G. injection G as <-.
    inversion F; subst. inversion IH; inversion OK; inversion LM; subst. cbn [map snd]. constructor; eauto.
    apply (IHo) with (es := es'); auto. intros p Hp. apply GN. right. auto.
Qed.

(** The expression a structure is packed into has a type its layout matches. *)
Theorem C25_packed_match (o : obj) l e t : obj_ok dict_attr o -> leaves_match o ->
  build_layout o = Ok l -> struct_to_expr dict_attr l o = Ok e -> typ e = Ok t -> lmatch l t = true.
Proof.
  intros OK LM B S T. revert OK LM l e t B S T. change (pmatch o).
  induction o as [e l|a|os IH|os IH|os IH|tg os IH] using obj_ind'; intros OK LM l' e' t B S T.
  - destruct LM as (t0 & T0 & M). cbn in B. injection B as <-.
    destruct l; simpl in OK; try tauto; cbn in S; injection S as <-; congruence.
  - simpl in OK. cbn in B. rewrite OK in B. cbn in B. injection B as <-. cbn in S. rewrite OK in S. injection S as <-.
    cbn [typ] in T. rewrite OK in T. injection T as <-. reflexivity.
  - simpl in OK, LM. rewrite ands_Forall in *. destruct OK as [N OK]. cbn [build_layout] in B. apply bind_ok in B as (u & _ & B).
    apply bind_ok in B as (ls & B & Q). injection Q as <-. cbn [struct_to_expr] in S. apply bind_ok in S as (es & S & R).
    exact (pos_match os IH OK LM ls es e' t B S R T).
  - simpl in OK, LM. rewrite ands_Forall in *. destruct OK as [N OK]. cbn [build_layout] in B. apply bind_ok in B as (u & _ & B).
    apply bind_ok in B as (ls & B & Q). injection Q as <-. cbn [struct_to_expr] in S. apply bind_ok in S as (es & S & R).
    exact (pos_match os IH OK LM ls es e' t B S R T).
  - simpl in OK, LM. rewrite ands_Forall in *. destruct OK as (N & ND & NA & OK). cbn [build_layout] in B. apply bind_ok in B as (u & _ & B).
    apply bind_ok in B as (ls & B & Q). injection Q as <-. cbn [struct_to_expr] in S. apply bind_ok in S as (es & S & R).
    rewrite lmatch_lab. refine (lab_match (ODict os) os IH OK LM _ ls es e' t B S R T).
    intros p Hp. simpl. rewrite Forall_forall in NA. rewrite NA by (apply in_map; auto). apply lookup_nth; auto.
  - simpl in OK, LM. rewrite ands_Forall in *. destruct OK as (N & ND & OK). cbn [build_layout] in B.
    apply bind_ok in B as (ls & B & Q). injection Q as <-. cbn [struct_to_expr] in S. apply bind_ok in S as (es & S & R).
    rewrite lmatch_lab. refine (lab_match (OData tg os) os IH OK LM _ ls es e' t B S R T).
    intros p Hp. apply lookup_nth; auto.
Qed.
End Props.

(** A layout of arrays matches arrays of anything: the layout of the elements is
    not compared (layout.py:29-36). *)
Theorem C25_elements_refuted : exists sub e, lmatch (LVec sub) (TVec e) = true /\ lmatch sub e = false.
Proof. exists LAtom, (TPair (TScalar KInt) (TScalar KFloat)). split; reflexivity. Qed.

Section Samples.
#[local] Existing Instance zfloat.
#[local] Existing Instance no_externs.
(** {3: (1, x), 5: 2} with an array x *)
Example C25_match_example :
  let x := PStore (SV 0) (TVec (TScalar KFloat)) in
  let o := ODict [(3, OTup [OArr (p_int 1) LAtom; OArr x (LVec LAtom)]); (5, ORaw (ascalar (SI 2)))] in
  let l := LLab [(3, LPos [LAtom; LVec LAtom]); (5, LAtom)] None in
  obj_ok (fun _ => false) o /\ leaves_match o /\ build_layout o = Ok l /\
  exists e t, struct_to_expr (fun _ => false) l o = Ok e /\ typ e = Ok t /\
    t = TPair (TPair (TScalar KInt) (TVec (TScalar KFloat))) (TScalar KInt) /\ lmatch l t = true /\
    lmatch l (TPair (TScalar KInt) (TScalar KInt)) = false.
Proof.
  split; [cbn; repeat split; try discriminate; repeat constructor; simpl; intuition lia|].
  split; [cbn; repeat split; eauto|]. split; [reflexivity|]. eexists _, _. repeat split; reflexivity.
Qed.
End Samples.

Print Assumptions C25_match.
Print Assumptions C25_unambiguous.
Print Assumptions C25_packed_match.
Print Assumptions C25_elements_refuted.
