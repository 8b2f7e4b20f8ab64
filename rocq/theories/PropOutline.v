(** Property C39: the whole [outline] pass (ein/midend/lining.py:113-143), on Phi
    terms and on array code. *)
From Verif Require Import Base Scalar Tensor Types Sym Phi Den NdOps Term PhiTerm DenFree SpecPhi Lining Outline Dominators
  InlineMemo GenCheck Checkers Yarr YTerm OutlinePass OutlineTree OutlineTotal OutlineBinders Sample.

(** No two positions of [q] hold the same term, except variables and scalar constants. *)
Definition no_sharing {T} {O : TermOps T} (q : T) : Prop :=
  forall c n1 n2 k1 k2, is_atom c = false -> sub_of n1 q -> sub_of n2 q ->
    nth_error (subs n1) k1 = Some c -> nth_error (subs n2) k2 = Some c -> n1 = n2 /\ k1 = k2.

Section Props.
Context {FO : FloatOps} {EX : Externs} {PO : PadOps}.

Lemma phi_atoms : atoms_defined (sem := den).
Proof.
  intros E b Hb Hf. destruct b; try discriminate.
  - exists (VArr a). reflexivity.
  - simpl. assert (Hs : E s <> None) by (apply Hf; constructor; reflexivity).
    destruct (E s) as [v|]; [exists v; reflexivity|congruence].
Qed.

Lemma yarr_atoms : atoms_defined (sem := yeval).
Proof.
  intros E b Hb Hf. destruct b; try discriminate.
  - exists (YA a). reflexivity.
  - simpl. assert (Hs : E (SV x) <> None) by (apply Hf; constructor; reflexivity).
    destruct (E (SV x)) as [w|]; [exists w; reflexivity|congruence].
Qed.

(** * Phi *)

(** The pass succeeds exactly if removing the lets keeps the free symbols. *)
Theorem C39_succeeds (p : phi) (nxt : nat) : distinct_binders p -> above nxt p ->
  ((exists q, outline nxt p = Ok q) <-> forall s, free_in s p -> free_in s (inline_memo false p)).
Proof.
  intros D A. rewrite inline_memo_eq by auto. split.
  - intros (q & H) s. rewrite !free_in_isfree. apply (outline_needs nxt p q (conj D A) H).
  - intros H. destruct (outline_total nxt p (conj D A)) as (q & Hq & _); eauto.
    intros s. rewrite <- !free_in_isfree. apply H.
Qed.

(** That is so if every let-bound variable is used. *)
Theorem C39_succeeds_used (p : phi) (nxt : nat) : distinct_binders p -> above nxt p ->
  (forall x b body, sub_of (PLet x b body) p -> exists t, sub_of (PStore (SV x) t) body) ->
  exists q, outline nxt p = Ok q.
Proof.
  intros D A U. destruct (outline_total nxt p (conj D A)) as (q & Hq & _); eauto.
  apply inline_keeps_free; auto. intros n x b body Hn Hu. destruct n; try discriminate. injection Hu as -> -> ->.
  destruct (U _ _ _ Hn) as (t & Ht). eexists. split; [exact Ht|reflexivity].
Qed.

(** The result: the same free symbols, all binders distinct, and every term
    other than variables and scalar constants at one position. *)
Theorem C39_result (p q : phi) (nxt : nat) : distinct_binders p -> above nxt p -> outline nxt p = Ok q ->
  (forall s, free_in s q <-> free_in s p) /\ distinct_binders q /\ no_sharing q.
Proof.
  intros D A H. destruct (outline_spec (sem := den) nxt p q (conj D A) H) as (p3 & nxt3 & _ & _ & Tq & TP & _).
  destruct (outline_total nxt p (conj D A) (outline_needs nxt p q (conj D A) H)) as (q' & H' & F).
  rewrite H in H'. injection H' as <-. split; [intros s; rewrite !free_in_isfree; apply F|].
  split; [apply Tq|]. exact (tree_parents q TP).
Qed.

(** Its binders are the program's own, or new. *)
Theorem C39_binders (p q : phi) (nxt : nat) : distinct_binders p -> above nxt p -> outline nxt p = Ok q ->
  forall n, sub_of n q ->
    captured n = [] \/ (exists m, sub_of m p /\ captured n = captured m) \/ (exists x, captured n = [SV x] /\ nxt <= x).
Proof. intros D A H. exact (outline_capt nxt p q D A H). Qed.

(** Where both have a value it is the same. *)
Theorem C39_value (p q : phi) (nxt : nat) (E : env) v w : distinct_binders p -> above nxt p ->
  outline nxt p = Ok q -> den E p = Ok v -> den E q = Ok w -> w = v.
Proof. intros D A H Hv Hw. exact (outline_agree_any (vint 0) nxt p q E v w phi_atoms (conj D A) H Hv Hw). Qed.

(** A program without lets has the value of its outlined version. *)
Theorem C39_value_letfree (p q : phi) (nxt : nat) (E : env) v : distinct_binders p -> above nxt p ->
  (forall x b body, ~ sub_of (PLet x b body) p) ->
  outline nxt p = Ok q -> (forall s, free_in s p -> E s <> None) ->
  den E q = Ok v -> den E p = Ok v.
Proof.
  intros D A N H HB Hv. rewrite <- (inline_letfree p).
  - eapply (outline_sound nxt p q E v phi_atoms (conj D A) H); eauto. intros s Hs. apply HB. apply free_in_isfree. exact Hs.
  - intros n Hn. destruct n; try reflexivity. exfalso. eapply N; eauto.
Qed.

(** * Array code *)

Theorem C39_array_succeeds (p : yarr) (nxt : nat) : distinct_binders p -> above nxt p ->
  ((exists q, outline nxt p = Ok q) <-> forall s, isfree s p -> isfree s (inline_memo false p)).
Proof.
  intros D A. rewrite inline_memo_eq by auto. split.
  - intros (q & H) s. apply (outline_needs nxt p q (conj D A) H).
  - intros H. destruct (outline_total nxt p (conj D A)) as (q & Hq & _); eauto.
Qed.

Theorem C39_array_succeeds_used (p : yarr) (nxt : nat) : distinct_binders p -> above nxt p ->
  (forall x b body, sub_of (YLet x b body) p -> exists t, sub_of (YVar x t) body) ->
  exists q, outline nxt p = Ok q.
Proof.
  intros D A U. destruct (outline_total nxt p (conj D A)) as (q & Hq & _); eauto.
  apply inline_keeps_free; auto. intros n x b body Hn Hu. destruct n; try discriminate. injection Hu as -> -> ->.
  destruct (U _ _ _ Hn) as (t & Ht). eexists. split; [exact Ht|reflexivity].
Qed.

Theorem C39_array_result (p q : yarr) (nxt : nat) : distinct_binders p -> above nxt p -> outline nxt p = Ok q ->
  (forall s, isfree s q <-> isfree s p) /\ distinct_binders q /\ no_sharing q.
Proof.
  intros D A H. destruct (outline_spec (sem := yeval) nxt p q (conj D A) H) as (p3 & nxt3 & _ & _ & Tq & TP & _).
  destruct (outline_total nxt p (conj D A) (outline_needs nxt p q (conj D A) H)) as (q' & H' & F).
  rewrite H in H'. injection H' as <-. split; [exact F|]. split; [apply Tq|]. exact (tree_parents q TP).
Qed.

Theorem C39_array_value (p q : yarr) (nxt : nat) (R : yenv) v w : distinct_binders p -> above nxt p ->
  outline nxt p = Ok q -> yeval R p = Ok v -> yeval R q = Ok w -> w = v.
Proof. intros D A H Hv Hw. exact (outline_agree_any (YA (ascalar (SI 0%Z))) nxt p q R v w yarr_atoms (conj D A) H Hv Hw). Qed.

Theorem C39_array_binders (p q : yarr) (nxt : nat) : distinct_binders p -> above nxt p -> outline nxt p = Ok q ->
  forall n, sub_of n q ->
    ycapt n = [] \/ (exists m, sub_of m p /\ ycapt n = ycapt m) \/ (exists x, ycapt n = [SV x] /\ nxt <= x).
Proof. intros D A H. exact (outline_capt nxt p q D A H). Qed.

Theorem C39_array_value_letfree (p q : yarr) (nxt : nat) (R : yenv) v : distinct_binders p -> above nxt p ->
  (forall x b body, ~ sub_of (YLet x b body) p) ->
  outline nxt p = Ok q -> (forall s, isfree s p -> R s <> None) ->
  yeval R q = Ok v -> yeval R p = Ok v.
Proof.
  intros D A N H HB Hv. rewrite <- (inline_letfree p).
  - eapply (outline_sound nxt p q R v yarr_atoms (conj D A) H); eauto.
  - intros n Hn. destruct n; try reflexivity. exfalso. eapply N; eauto.
Qed.

(** * Examples *)

(** sum over i<3 of (a*a + a*a): the product is shared, then the sum moved out of
    the loop and the renaming this leaves behind removed. *)
Example C39_example :
  let iv x := PStore (SV x) (TScalar KInt) in
  let sq := PBin BMul (iv 0) (iv 0) in
  let p := PFold 1 (p_int 3) 2 (p_int 0) (PBin BAdd (iv 2) (PBin BAdd sq sq)) in
  let E := upd empty_env (SV 0) (vint 5) in
  exists q, outline 3 p = Ok q /\ q <> p /\ distinct_binders p /\ above 3 p /\
    (forall x b body, ~ sub_of (PLet x b body) p) /\ (forall s, free_in s p -> E s <> None) /\
    den E q = Ok (vint 150) /\ den E p = Ok (vint 150).
Proof.
  cbv zeta. eexists. split; [vm_compute; reflexivity|]. split; [congruence|].
  split; [apply distinctb_sound; reflexivity|]. split; [apply aboveb_sound; reflexivity|].
  split; [|split; [|split; reflexivity]].
  - intros x b body H. apply gnodes_spec in H. vm_compute in H. repeat (destruct H as [H|H]; [discriminate|]). destruct H.
  - intros s Hs. apply freeb_spec in Hs. unfold upd. destruct (sym_eqb s (SV 0)) eqn:Es; [congruence|]. exfalso.
    destruct s as [x|x]; [|discriminate]. destruct x as [|[|[|x]]]; vm_compute in Hs; try discriminate.
Qed.

(** An unused let whose bound term has the only occurrence of a free variable is
    rejected: let x = y in 1. *)
Theorem C39_unused_let_refuted :
  exists (p : phi) nxt (E : env) v, distinct_binders p /\ above nxt p /\
    (forall s, free_in s p -> E s <> None) /\ den E p = Ok v /\ outline nxt p = Err EAssert.
Proof.
  exists (PLet 1 (PStore (SV 0) (TScalar KInt)) (p_int 1)), 2, (upd empty_env (SV 0) (vint 5)), (vint 1).
  split; [apply distinctb_sound; reflexivity|]. split; [apply aboveb_sound; reflexivity|].
  split; [|split; reflexivity].
  intros s Hs. simpl in Hs. destruct Hs as [->|[_ []]]. rewrite upd_eq. discriminate.
Qed.
End Props.

Example C39_array_example :
  let fv x := YVar x [(1, KFloat)] in
  let sq := YBin BMul (fv 0) (fv 0) None in
  let p := YFold 1 (YConst (@ascalar zfloat (SI 3%Z))) 2 (fv 0) (YBin BAdd (fv 2) (YBin BAdd sq sq None) None) : @yarr zfloat in
  let R := upd (fun _ => None) (SV 0) (YA (farr [2] [5; 7]%Z)) : @yenv zfloat in
  exists q, outline 3 p = Ok q /\ q <> p /\ distinct_binders p /\ above 3 p /\
    (forall x b body, ~ sub_of (YLet x b body) p) /\ (forall s, isfree s p -> R s <> None) /\
    @yeval zfloat no_externs edge_pads R q = Ok (YA (farr [2] [155; 301]%Z)) /\
    @yeval zfloat no_externs edge_pads R p = Ok (YA (farr [2] [155; 301]%Z)).
Proof.
  cbv zeta. eexists. split; [vm_compute; reflexivity|]. split; [congruence|].
  split; [apply gdistinctb_sound; vm_compute; reflexivity|]. split; [apply gaboveb_sound; vm_compute; reflexivity|].
  split; [|split; [|split; vm_compute; reflexivity]].
  - intros x b body H. apply gnodes_spec in H. vm_compute in H. repeat (destruct H as [H|H]; [discriminate|]). destruct H.
  - intros s Hs. apply isfree_tfree in Hs; [|apply unshadowed_hygienic, distinct_unshadowed, gdistinctb_sound; vm_compute; reflexivity].
    vm_compute in Hs. repeat (destruct Hs as [<-|Hs]; [vm_compute; congruence|]). destruct Hs.
Qed.

Print Assumptions C39_succeeds.
Print Assumptions C39_succeeds_used.
Print Assumptions C39_result.
Print Assumptions C39_binders.
Print Assumptions C39_value.
Print Assumptions C39_value_letfree.
Print Assumptions C39_array_succeeds.
Print Assumptions C39_array_succeeds_used.
Print Assumptions C39_array_result.
Print Assumptions C39_array_binders.
Print Assumptions C39_array_value.
Print Assumptions C39_array_value_letfree.
Print Assumptions C39_unused_let_refuted.
