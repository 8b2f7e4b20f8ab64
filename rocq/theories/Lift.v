(** Lifting a sum of products (phi_to_yarr.py:445-506): what the result
    contains. *)
From Verif Require Import Base Scalar Tensor Types Sym Phi Den Term PhiTerm DenFree SpecPhi Lining
  Sizes ClipShift NdOps Yarr Axial Codegen.

Section Lift.
Context {FO : FloatOps}.

(** [e] is a sum of [elem] over [c]. *)
Definition sum_body (acc : nat) (init body elem : phi) : Prop :=
  init = PConst (ascalar (SF (f_of_Z 0))) /\
  exists a b, body = PBin BAdd a b /\
    ((is_store acc a = true /\ elem = b) \/ (is_store acc a = false /\ is_store acc b = true /\ elem = a)).

Lemma match_summation_inv c size acc init body c' size' elem :
  match_summation (PFold c size acc init body) = Some (c', size', elem) ->
  c' = c /\ size' = size /\ sum_body acc init body elem.
Proof.
  unfold match_summation, match_reduction_by_body. destruct body; try discriminate.
  destruct o; try discriminate.
  all: destruct (is_store acc body1) eqn:A; [|destruct (is_store acc body2) eqn:B; [|discriminate]]; try discriminate.
  all: destruct (phi_eqb _ _) eqn:Q; [|discriminate]; apply phi_eqb_eq in Q; intros H; injection H as <- <- <-.
  all: split; [auto|split; [auto|split; [exact Q|]]]; do 2 eexists; split; [reflexivity|auto].
Qed.

(** What [lift] does, as a relation; with [b] the conditions of [lift_sound]. *)
Inductive lifts (b : bool) : phi -> dot -> Prop :=
| L_pure e : lifts b e (dot_pure e)
| L_sum c size acc init body elem d d' :
    sum_body acc init body elem -> lifts b elem d -> dot_sum c size d = Ok d' ->
    (b = true -> ~ In (SV acc) (fsyms elem) /\
       Forall (fun args => exists a, In a args /\ In (SV c) (fsyms a)) (products d) /\
       Forall (fun p => ~ In (SV c) (fsyms (snd p))) (contract d)) ->
    lifts b (PFold c size acc init body) d'
| L_add x y dx dy d : lifts b x dx -> lifts b y dy -> dot_add dx dy = Ok d -> lifts b (PBin BAdd x y) d
| L_sub x y dx dy d : lifts b x dx -> lifts b y dy -> dot_add dx (dot_neg dy) = Ok d -> lifts b (PBin BSub x y) d
| L_neg x dx : lifts b x dx -> lifts b (PUn UNeg x) (dot_neg dx)
| L_mul x y dx dy : lifts b x dx -> lifts b y dy ->
    (forall c, In c (map fst (contract dx)) -> ~ In c (map fst (contract dy))) ->
    lifts b (PBin BMul x y) (dot_mul dx dy).

Lemma lift_lifts b : forall n e d, psize e <= n -> lift e = Ok d -> (b = true -> lift_sound e = true) -> lifts b e d.
Proof.
  assert (PU : forall e d, Ok (dot_pure e) = Ok d -> lifts b e d).
  { intros e0 d H. injection H as <-. constructor. }
  induction n as [|n IH]; intros e d Hn Hd HS; [destruct e; simpl in Hn; lia|].
  destruct e; cbn [lift] in Hd; auto; cbn [lift_sound] in HS.
  - destruct (match_summation _) as [[[c' s'] el]|] eqn:M; [|auto].
    apply match_summation_inv in M as (-> & -> & SB). pose proof SB as (-> & a1 & a2 & -> & K).
    simpl in Hn.
    assert (Q : exists d', lift el = Ok d' /\ dot_sum c e1 d' = Ok d /\ psize el <= n /\
        (b = true -> lift_sound el = true /\ negb (smem (SV acc) (fsyms el)) = true /\
            forallb (existsb (fun a => smem (SV c) (fsyms a))) (products d') = true /\
            forallb (fun p => negb (smem (SV c) (fsyms (snd p)))) (contract d') = true)).
    { destruct K as [(A & ->)|(A & B & ->)]; rewrite A in Hd, HS; apply bind_ok in Hd as (d' & L & Hd); exists d';
        (split; [exact L|split; [exact Hd|split; [lia|]]]); intros Hb; specialize (HS Hb);
        rewrite L, !andb_true_iff in HS; tauto. }
    destruct Q as (d' & L & DS & SZ & C). apply L_sum with (elem := el) (d := d'); auto.
    + apply IH; auto. intros Hb. apply C; auto.
    + intros Hb. destruct (C Hb) as (_ & C1 & C2 & C3). split; [|split].
      * apply negb_true_iff in C1. intros H. apply smem_In in H. congruence.
      * rewrite forallb_forall in C2. apply Forall_forall. intros args Ha. specialize (C2 _ Ha).
        apply existsb_exists in C2 as (x & Hx & C2). exists x. split; auto. apply smem_In; auto.
      * rewrite forallb_forall in C3. apply Forall_forall. intros p Hp. specialize (C3 _ Hp).
        apply negb_true_iff in C3. intros H. apply smem_In in H. congruence.
  - destruct o; auto. apply bind_ok in Hd as (x & L & Hd). injection Hd as <-. simpl in Hn. constructor. apply IH; auto. lia.
  - simpl in Hn. destruct o; auto; rewrite ?andb_true_iff in HS;
      apply bind_ok in Hd as (x & L & Hd); apply bind_ok in Hd as (y & L' & Hd).
    + eapply L_add; [apply IH; [lia|eassumption|tauto]|apply IH; [lia|eassumption|tauto]|auto].
    + eapply L_sub; [apply IH; [lia|eassumption|tauto]|apply IH; [lia|eassumption|tauto]|auto].
    + destruct (existsb _ _) eqn:X; [auto|]. injection Hd as <-.
      constructor; [apply IH; [lia|assumption|tauto]|apply IH; [lia|assumption|tauto]|].
      intros c Hc K. apply not_true_iff_false in X. apply X. apply existsb_exists.
      apply in_map_iff in Hc as (p & <- & Hp). exists p. split; auto. apply mem_In. auto.
Qed.

(** A lifted factor has no index that the term does not have. *)
Definition dot_within (d : dot) (e : phi) : Prop :=
  (forall args a x, In args (products d) -> In a args -> In (SX x) (fsyms a) -> In (SX x) (fsyms e)) /\
  (forall p x, In p (contract d) -> In (SX x) (fsyms (snd p)) -> In (SX x) (fsyms e)).

Lemma dot_sub_within d e e' : dot_within d e -> (forall x, In (SX x) (fsyms e) -> In (SX x) (fsyms e')) -> dot_within d e'.
Proof. intros [A B] H. split; intros; apply H; eauto. Qed.
Lemma union_contract_In a b p : In p (union_contract a b) -> In p a \/ In p b.
Proof. unfold union_contract. rewrite in_app_iff, filter_In. tauto. Qed.
Lemma dot_neg_within x e : dot_within x e -> dot_within (dot_neg x) e.
Proof.
  intros [A B]. split; cbn [dot_neg products contract]; auto.
  intros args a z Ha. apply in_map_iff in Ha as ([|q args'] & <- & Ha); [intros []|]. intros [<-|Hin] Hz.
  - apply (A _ q z Ha); [left; reflexivity|exact Hz].
  - apply (A _ a z Ha); [right; auto|exact Hz].
Qed.
Lemma dot_add_within x y d e : dot_add x y = Ok d -> dot_within x e -> dot_within y e -> dot_within d e.
Proof.
  unfold dot_add. intros H [A B] [A' B']. apply bind_ok in H as (u & _ & H). injection H as <-. split; cbn [products contract].
  - intros args a z Ha. apply in_app_or in Ha as [Ha|Ha]; eauto.
  - intros p z Hp. apply union_contract_In in Hp as [Hp|Hp]; eauto.
Qed.

Lemma lifts_within b e d : lifts b e d -> dot_within d e.
Proof.
  assert (SX2 : forall o x y z, In (SX z) (fsyms x) \/ In (SX z) (fsyms y) -> In (SX z) (fsyms (PBin o x y))).
  { intros. simpl. apply in_or_app. auto. }
  induction 1.
  - split; [|intros ? ? []]. intros args a x [<-|[]] [<-|[]]; auto.
  - unfold dot_sum in H1. apply bind_ok in H1 as (u & _ & H1). injection H1 as <-.
    destruct H as (-> & a & a' & -> & K). destruct IHlifts as [A B].
    assert (P : forall x, In (SX x) (fsyms size) \/ In (SX x) (fsyms elem) -> In (SX x) (fsyms (PFold c size acc (PConst (ascalar (SF (f_of_Z 0)))) (PBin BAdd a a')))).
    { intros x Hx. simpl. apply sremove_In. split; [|intros [Q|[Q|[]]]; discriminate]. rewrite !in_app_iff.
      destruct Hx as [Hx|Hx]; auto. destruct K as [(_ & ->)|(_ & _ & ->)]; auto. }
    split; cbn [products contract].
    + intros. apply P. eauto.
    + intros p x Hp. apply in_app_or in Hp as [Hp|[<-|[]]]; eauto.
  - eapply dot_add_within; eauto; (eapply dot_sub_within; [eassumption|]); auto.
  - eapply dot_add_within; eauto; [|apply dot_neg_within]; (eapply dot_sub_within; [eassumption|]); auto.
  - apply dot_neg_within. auto.
  - destruct IHlifts1 as [A B], IHlifts2 as [A' B']. split; cbn [dot_mul products contract].
    + intros args a z Ha. apply in_flat_map in Ha as (p & Hp & Ha). apply in_map_iff in Ha as (q & <- & Hq).
      intros Hin. apply in_app_or in Hin as [Hin|Hin]; eauto.
    + intros p z Hp. apply union_contract_In in Hp as [Hp|Hp]; eauto.
Qed.
End Lift.
