(** The passes put together: ein/backend/naive.py:88-93, ein/codegen/phi_to_yarr.py:25-316
    and ein/backend/numpy_backend.py:126-185. *)
From Verif Require Import Base Scalar Tensor Types Sym Phi Den NdOps Term PhiTerm NdFacts DenFree DenWf Typing Naive SpecPhi Lining Outline
  Dominators InlineMemo Visits OutlinePass OutlineBinders Yarr YTerm YWf Machine MachineSim MachineRun Inplace
  Soa SoaTyp SoaFacts SoaMain SoaWf Codegen Compile FastPad Cancel Axial YOps AxialFacts.

Lemma fold_and {X} (P : X -> Prop) l : fold_right and True (map P l) <-> forall c, In c l -> P c.
Proof.
  induction l; simpl; [tauto|]. rewrite IHl. split; [intros [A B] c [<-|Hc]; auto|].
  intros H. split; auto.
Qed.

Ltac use_apart A IH :=
  match goal with
  | |- fold_right and True (map _ _) => apply fold_and; intros ? ?; use_apart A IH
  | |- _ /\ _ => split; use_apart A IH
  | |- ~ In _ _ => let H := fresh in intros H; eapply (ap_out _ _ A); [apply sub_refl| |exact H]; simpl; tauto
  | |- _ <> _ => let H := fresh in let N := fresh in intros H; pose proof (ap_self _ _ A _ (sub_refl _)) as N;
      subst; simpl in N; inversion N; subst; simpl in *; tauto
  | |- True => exact I
  | _ => idtac
  end.

Section FreshPhi.
Context {FO : FloatOps} {EX : Externs}.

Lemma apart_fresh : forall (e : phi) X, apart X e -> fresh_binders X e.
Proof.
  apply (tsize_ind (fun e : phi => forall X, apart X e -> fresh_binders X e)). intros e IH X A.
  assert (K : forall c sc Y, In c (subterms e) -> incl sc (captured e) -> incl Y (sc ++ X) -> fresh_binders Y c).
  { intros c sc Y Hc Hs HY. apply IH; [apply tsize_sub; auto|]. eapply apart_incl; [exact HY|]. eapply apart_child; eauto. }
  assert (K0 : forall c, In c (subterms e) -> fresh_binders X c).
  { intros c Hc. apply (K c []); auto; [intros ? []|apply incl_refl]. }
  assert (K1 : forall c Y, In c (subterms e) -> incl Y (captured e ++ X) -> fresh_binders Y c).
  { intros c Y Hc HY. apply (K c (captured e)); auto. apply incl_refl. }
  destruct e; cbn [fresh_binders]; use_apart A IH.
  all: try (apply K0; simpl; rewrite ?in_app_iff; simpl; tauto).
  all: apply K1; [simpl; rewrite ?in_app_iff; simpl; tauto|apply incl_refl].
Qed.

Lemma fresh_nodes : forall (e : phi) X, fresh_binders X e ->
  forall n, sub_of n e -> NoDup (capt n) /\ forall s, In s (capt n) -> ~ In s X.
Proof.
  intros e X F n Hn.
  assert (P : exists Y, incl X Y /\ fresh_binders Y n).
  { revert X F. induction Hn as [t|n c t Hc Hn IH]; intros X F; [exists X; split; auto using incl_refl|].
    assert (Q : exists Y, incl X Y /\ fresh_binders Y c).
    { destruct t; simpl in Hc, F; rewrite ?fold_and in F; rewrite ?in_app_iff in Hc; simpl in Hc;
        repeat match goal with H : _ \/ _ |- _ => destruct H | H : False |- _ => destruct H end; subst;
        decompose [and] F; eauto 3 using incl_refl; eexists; (split; [|eauto]); auto using incl_refl, incl_tl. }
    destruct Q as (Y & H1 & H2). destruct (IH _ H2) as (Z & H3 & H4). exists Z. split; auto. eapply incl_tran; eauto. }
  destruct P as (Y & HY & F'). clear F Hn.
  assert (N : NoDup (capt n) /\ forall s, In s (capt n) -> ~ In s Y).
  { destruct n; simpl in *; (split; [repeat (apply NoDup_nil || apply NoDup_cons); simpl; intuition congruence|]);
      intros q Hs; try tauto; repeat (destruct Hs as [<-|Hs]; [tauto|]); destruct Hs. }
  destruct N as [N1 N2]. split; auto. intros s Hs Hi. apply (N2 s Hs). auto.
Qed.
End FreshPhi.

Section FreshYarr.
Context {FO : FloatOps} {EX : Externs}.

Lemma in_somes {X} (l : list (option X)) c : In c (somes l) <-> In (Some c) l.
Proof.
  induction l as [|[x|] l IH]; simpl; [tauto| |]; rewrite IH; intuition congruence.
Qed.

Lemma apart_yfresh : forall (e : yarr) X, apart X e -> yfresh X e.
Proof.
  apply (tsize_ind (fun e : yarr => forall X, apart X e -> yfresh X e)). intros e IH X A.
  assert (K : forall c sc Y, In c (ysubs e) -> incl sc (ycapt e) -> incl Y (sc ++ X) -> yfresh Y c).
  { intros c sc Y Hc Hs HY. apply IH; [apply tsize_sub; auto|]. eapply apart_incl; [exact HY|]. eapply apart_child; eauto. }
  assert (K0 : forall c, In c (ysubs e) -> yfresh X c).
  { intros c Hc. apply (K c []); auto; [intros ? []|apply incl_refl]. }
  assert (K1 : forall c Y, In c (ysubs e) -> incl Y (ycapt e ++ X) -> yfresh Y c).
  { intros c Y Hc HY. apply (K c (ycapt e)); auto. apply incl_refl. }
  destruct e; cbn [yfresh]; use_apart A IH.
  all: try (apply K0; simpl; rewrite ?in_app_iff; simpl; tauto).
  all: try (apply K1; [simpl; tauto|apply incl_refl]).
  all: destruct c as [c|]; auto; apply K0; simpl; rewrite ?in_app_iff, ?in_somes; tauto.
Qed.

Lemma yfresh_nodes : forall (e : yarr) X, yfresh X e ->
  forall n, sub_of n e -> NoDup (capt n) /\ forall s, In s (capt n) -> ~ In s X.
Proof.
  intros e X F n Hn.
  assert (P : exists Y, incl X Y /\ yfresh Y n).
  { revert X F. induction Hn as [t|n c t Hc Hn IH]; intros X F; [exists X; split; auto using incl_refl|].
    assert (Q : exists Y, incl X Y /\ yfresh Y c).
    { destruct t; simpl in Hc, F; rewrite ?fold_and in F; rewrite ?in_app_iff in Hc; simpl in Hc;
        repeat match goal with H : _ \/ _ |- _ => destruct H | H : False |- _ => destruct H end; subst;
        decompose [and] F; eauto 3 using incl_refl; try (eexists; (split; [|eauto]); auto using incl_refl, incl_tl; fail).
      all: exists X; split; auto using incl_refl; rewrite in_somes in *;
        match goal with H : In (Some _) ?l, H1 : forall o, In o ?l -> _ |- _ => exact (H1 _ H) end. }
    destruct Q as (Y & H1 & H2). destruct (IH _ H2) as (Z & H3 & H4). exists Z. split; auto. eapply incl_tran; eauto. }
  destruct P as (Y & HY & F'). clear F Hn.
  assert (N : NoDup (capt n) /\ forall s, In s (capt n) -> ~ In s Y).
  { destruct n; simpl in *; (split; [repeat (apply NoDup_nil || apply NoDup_cons); simpl; intuition congruence|]);
      intros q Hs; try tauto; repeat (destruct Hs as [<-|Hs]; [tauto|]); destruct Hs. }
  destruct N as [N1 N2]. split; auto. intros s Hs Hi. apply (N2 s Hs). auto.
Qed.
End FreshYarr.

(** ** The interpreter and the NumPy backend *)
Section Whole.
Context {FO : FloatOps} {EX : Externs}.

(** naive.py:88-93.  The strict run is the same, but stops at a comprehension of no elements. *)
Definition interpret (strict : bool) (fuel nxt : nat) (p : phi) (E : env) : res (val * env) :=
  let* q := struct_of_arrays fuel p in
  let* r := outline nxt q in
  nin strict r E.

(** phi_to_yarr.py:25-316, with all the flags on that choose the clean-up passes. *)
Definition transform (fl : flags) (orc : oracle) (fuel1 fuel2 : nat) (p : phi) : res yarr :=
  let* q := struct_of_arrays fuel1 p in
  let* y := lower fl orc fuel2 q in
  Ok (cancel_tuple_ops (cancel_shape_ops y)).

(** numpy_backend.py:175-176 *)
Definition stage_in_array (nxt : nat) (y : yarr) : res yarr :=
  let* z := outline nxt y in Ok (apply_inplace z).

(** Nodes of the cleaned-up code come from nodes of the code. *)
Lemma shape_node (e : yarr) : exists m, sub_of m e /\ cancel_shape_ops e = ymap cancel_shape_ops m.
Proof.
  pattern e. apply (tsize_ind (fun e => exists m, sub_of m e /\ cancel_shape_ops e = ymap cancel_shape_ops m)).
  clear e. intros e IH. destruct e; try (eexists; split; [apply sub_refl|reflexivity]); cbn [cancel_shape_ops].
  - destruct (list_nat_eqb _ _); [|eexists; split; [apply sub_refl|reflexivity]].
    destruct (IH e) as (m & Hm & ->); [match goal with |- tsize e < tsize ?q => apply (tsize_sub q) end; simpl; auto|]. exists m. split; auto. eapply sub_step; [|exact Hm]. simpl. auto.
  - destruct axes; [|eexists; split; [apply sub_refl|reflexivity]].
    destruct (IH e) as (m & Hm & ->); [match goal with |- tsize e < tsize ?q => apply (tsize_sub q) end; simpl; auto|]. exists m. split; auto. eapply sub_step; [|exact Hm]. simpl. auto.
  - destruct axes; [|eexists; split; [apply sub_refl|reflexivity]].
    destruct (IH e) as (m & Hm & ->); [match goal with |- tsize e < tsize ?q => apply (tsize_sub q) end; simpl; auto|]. exists m. split; auto. eapply sub_step; [|exact Hm]. simpl. auto.
Qed.

Lemma cleanup_nodes (f : yarr -> yarr) : (forall e, exists m, sub_of m e /\ f e = ymap f m) ->
  forall e n, sub_of n (f e) -> exists m, sub_of m e /\ n = ymap f m.
Proof.
  intros F. apply (tsize_ind (fun e => forall n, sub_of n (f e) -> exists m, sub_of m e /\ n = ymap f m)).
  intros e IH n Hn. destruct (F e) as (m & Hm & Q). rewrite Q in Hn. inversion Hn as [t Ht|s c t Hc Hs Ht]; subst; eauto.
  change (subs (ymap f m)) with (ysubs (ymap f m)) in Hc. rewrite ymap_subs in Hc. apply in_map_iff in Hc as (c0 & <- & Hc).
  destruct (IH c0) with (n := n) as (k & Hk & ->); auto.
  - pose proof (tsize_sub (O := YOpsT) m c0 Hc). apply sub_of_size in Hm. destruct Hm; [subst; auto|lia].
  - exists k. split; auto. eapply sub_of_trans; [exact Hk|]. eapply sub_of_trans; [|exact Hm]. eapply sub_step; [exact Hc|constructor].
Qed.

Lemma shape_consts (e : yarr) a : sub_of (YConst a) (cancel_shape_ops e) -> sub_of (YConst a) e.
Proof.
  intros H. apply (cleanup_nodes _ shape_node) in H as (m & Hm & Q). destruct m; simpl in Q; try discriminate. congruence.
Qed.

Lemma inplace_up (e n : yarr) : sub_of n e -> sub_of (apply_inplace n) (apply_inplace e).
Proof.
  induction 1 as [|n c e Hc H IH]; [constructor|]. eapply sub_step; [|exact IH].
  change (In (apply_inplace c) (ysubs (apply_inplace e))). rewrite (apply_inplace_eq e), mark_subs, ymap_subs. apply in_map. exact Hc.
Qed.

Lemma pack_sane u : val_wf u -> match pack (vleaves u) with YA a => arr_wf a | YT l => Forall arr_wf l end.
Proof.
  intros W. assert (F : Forall arr_wf (vleaves u)).
  { induction u; simpl in *; [constructor; auto|]. apply Forall_app. destruct W. auto. }
  unfold pack. destruct (vleaves u) as [|b [|c l]]; auto. inversion F; auto.
Qed.

Lemma fast_pad_wf garbage a pads b : arr_wf a -> fast_edge_pad garbage a pads = Ok b -> arr_wf b.
Proof.
  intros W H. unfold fast_edge_pad in H. inv_bind. destruct (size_of _ =? 0).
  { injection Hk0 as <-. apply tab_wf. reflexivity. }
  destruct (_ =? 0)%Z. { injection Hk0 as <-. auto. }
  destruct (forallb _ pads) eqn:Q; [|eapply nd_edge_pad_wf; eauto].
  injection Hk0 as <-. apply tab_wf. intros idx _. assert (K : forall s, skind (to_float s) = KFloat) by (intros []; reflexivity).
  destruct (all3 in_dest_op _ _ _); auto. destruct (all3 in_dest _ _ _); auto.
Qed.
End Whole.
