(** The parts of the torch backend that differ from NumPy in how they treat
    several axes (ein/backend/torch_backend.py:57-61, 81-95, 107-116). *)
From Coq Require Import Permutation Sorted.
From Verif Require Import Base Scalar Tensor NdOps NdFacts IndexOps.

Section Torch.
Context {FO : FloatOps}.

(** torch_backend.py:113-116 [unsqueeze_axes], one axis after the other;
    [Tensor.unsqueeze(k)] is [numpy.expand_dims] with a single axis. *)
Fixpoint torch_unsqueeze (axes : list nat) (a : arr) : res arr :=
  match axes with
  | [] => Ok a
  | k :: ks => let* b := nd_unsqueeze [k] a in torch_unsqueeze ks b
  end.

(** [Tensor.squeeze(k)] leaves an axis alone that has not one element. *)
Definition torch_squeeze1 (k : nat) (a : arr) : res arr :=
  let* _ := guard (k <? arank a) EShape in
  if nth k (ashape a) 0 =? 1 then nd_squeeze [k] a else Ok a.
(** torch_backend.py:107-110 [squeeze_axes] *)
Fixpoint torch_squeeze (axes : list nat) (a : arr) : res arr :=
  match axes with
  | [] => Ok a
  | k :: ks => let* b := torch_squeeze1 k a in torch_squeeze ks b
  end.

Definition increasing (l : list nat) : Prop := StronglySorted lt l.

Lemma increasing_NoDup l : increasing l -> NoDup l.
Proof.
  induction 1; constructor; auto. intros H1. rewrite Forall_forall in H0. apply H0 in H1. lia.
Qed.

Lemma mem_cons p k ks : mem p (k :: ks) = (p =? k) || mem p ks.
Proof. reflexivity. Qed.
Lemma mem_nil p : mem p [] = false.
Proof. reflexivity. Qed.

Lemma mem_above k ks p : Forall (lt k) ks -> p <= k -> mem p ks = false.
Proof. intros H Hp. apply mem_not_In. intros Hi. rewrite Forall_forall in H. apply H in Hi. lia. Qed.

Lemma ins_at_cons k ks v n : Forall (lt k) ks -> forall p m l, p <= k -> k < p + m -> length l + 1 = m -> m <= n ->
  ins_at ks v p n (ins_at [k] v p m l) = ins_at (k :: ks) v p n l.
Proof.
  intros HF. induction n as [|n IH]; intros p m l Hp Hk HL Hm; cbn [ins_at]; auto.
  destruct m as [|m]; [lia|]. rewrite (mem_above k ks p) by auto. cbn [ins_at].
  rewrite !mem_cons, mem_nil. rewrite (mem_above k ks p) by auto.
  destruct (p =? k) eqn:E; cbn [orb].
  - apply Nat.eqb_eq in E. subst p. f_equal.
    replace m with (length l) by lia. rewrite ins_at_none.
    + apply ins_at_ext. intros q Hq. unfold mem. cbn [existsb].
      destruct (q =? k) eqn:Q; [apply Nat.eqb_eq in Q; lia|reflexivity].
    + intros q Hq. unfold mem. cbn [existsb]. destruct (q =? k) eqn:Q; [apply Nat.eqb_eq in Q; lia|reflexivity].
  - apply Nat.eqb_neq in E. destruct l as [|x l]; [simpl in HL; lia|]. f_equal. apply IH; simpl in *; lia.
Qed.

Lemma drop_at_cons k ks l : Forall (lt k) ks -> forall p, p <= k ->
  drop_at [k] p (drop_at ks p l) = drop_at (k :: ks) p l.
Proof.
  intros HF. induction l as [|x l IH]; intros p Hp; cbn [drop_at]; auto.
  rewrite (mem_above k ks p) by auto. cbn [drop_at].
  rewrite !mem_cons, mem_nil. rewrite (mem_above k ks p) by auto.
  destruct (p =? k) eqn:E; cbn [orb].
  - apply Nat.eqb_eq in E. subst p. rewrite drop_at_none.
    + apply drop_at_ext. intros q Hq. unfold mem. cbn [existsb].
      destruct (q =? k) eqn:Q; [apply Nat.eqb_eq in Q; lia|reflexivity].
    + intros q Hq. unfold mem. cbn [existsb]. destruct (q =? k) eqn:Q; [apply Nat.eqb_eq in Q; lia|reflexivity].
  - apply Nat.eqb_neq in E. f_equal. apply IH. lia.
Qed.

Lemma drop_seq_length ks n : forall p,
  length (drop_at ks p (seq p n)) + length (filter (fun q => mem q ks) (seq p n)) = n.
Proof.
  induction n as [|n IH]; intros p; simpl; auto. specialize (IH (S p)). destruct (mem p ks); simpl; lia.
Qed.

Lemma filter_mem_length ks n : NoDup ks -> (forall k, In k ks -> k < n) ->
  length (filter (fun q => mem q ks) (seq 0 n)) = length ks.
Proof.
  intros ND H. apply Permutation_length. apply NoDup_Permutation; auto.
  - apply NoDup_filter, seq_NoDup.
  - intros x. rewrite filter_In, in_seq, mem_In. split; [tauto|]. intros Hx. split; auto. apply H in Hx. lia.
Qed.

Lemma inb_drop ks n : forall p sh idx, length (drop_at ks p (seq p n)) = length sh ->
  inb (ins_at ks 1 p n sh) idx -> inb sh (drop_at ks p idx).
Proof.
  induction n as [|n IH]; intros p sh idx HL H; simpl in *.
  - destruct sh; [|discriminate]. apply inb_length in H. destruct idx; [simpl; apply inb_nil|discriminate].
  - destruct idx as [|x idx]; [apply inb_length in H; destruct (mem p ks); [discriminate|destruct sh; discriminate]|].
    cbn [drop_at]. destruct (mem p ks).
    + apply inb_cons in H as [_ H]. eauto.
    + destruct sh as [|d sh]; [discriminate|]. apply inb_cons in H as [H1 H]. apply inb_cons. split; auto.
Qed.

Lemma nodupb_cons_inc k ks : increasing (k :: ks) -> nodupb (k :: ks) = true /\ nodupb ks = true /\ Forall (lt k) ks /\ increasing ks.
Proof.
  intros H. pose proof (increasing_NoDup _ H) as N. inversion H; subst. split; [apply nodupb_NoDup; auto|].
  split; [apply nodupb_NoDup, increasing_NoDup; auto|]. auto.
Qed.

Lemma inc_first k ks n : increasing (k :: ks) -> (forall q, In q (k :: ks) -> q < n + S (length ks)) -> k < n + 1.
Proof.
  revert k n. induction ks as [|j ks IH]; intros k n H B; [specialize (B k); simpl in B; lia|].
  inversion H as [|? ? H1 H2]; subst. inversion H2; subst.
  enough (j < (n + 1) + 1) by lia. apply IH; auto. intros q Hq. specialize (B q). simpl in B, Hq. simpl. destruct Hq; intuition lia.
Qed.

Lemma unsqueeze_step k ks a : increasing (k :: ks) ->
  nd_unsqueeze (k :: ks) a = (let* b := nd_unsqueeze [k] a in nd_unsqueeze ks b) \/
  exists e e', nd_unsqueeze (k :: ks) a = Err e /\ (let* b := nd_unsqueeze [k] a in nd_unsqueeze ks b) = Err e'.
Proof.
  intros H. destruct (nodupb_cons_inc k ks H) as (N1 & N2 & HF & HI). pose proof (increasing_NoDup _ HI) as ND.
  unfold nd_unsqueeze at 1 2. rewrite N1. cbn [andb length].
  assert (nodupb [k] = true) as -> by reflexivity. cbn [andb].
  destruct (forallb (fun k0 => k0 <? arank a + S (length ks)) (k :: ks)) eqn:F.
  - assert (B : forall q, In q (k :: ks) -> q < arank a + S (length ks)).
    { rewrite forallb_forall in F. intros q Hq. apply Nat.ltb_lt. auto. }
    pose proof (inc_first k ks (arank a) H B) as Hk.
    assert ((k <? arank a + 1) = true) as Hk' by (apply Nat.ltb_lt; auto).
    cbn [guard bind forallb]. rewrite Hk'. cbn [andb guard bind]. left.
    unfold nd_unsqueeze. rewrite N2. cbn [andb].
    set (b := tab (akind a) (ins_at [k] 1 0 (arank a + 1) (ashape a)) (fun idx => get a (drop_at [k] 0 idx))).
    assert (RB : arank b = arank a + 1) by (unfold arank, b; simpl; apply ins_at_length).
    assert (forallb (fun k0 => k0 <? arank b + length ks) ks = true) as ->.
    { apply forallb_forall. intros q Hq. apply Nat.ltb_lt. specialize (B q (or_intror Hq)). lia. }
    cbn [guard bind]. f_equal. rewrite RB. unfold b. cbn [akind ashape tab].
    assert (ins_at ks 1 0 (arank a + 1 + length ks) (ins_at [k] 1 0 (arank a + 1) (ashape a)) =
            ins_at (k :: ks) 1 0 (arank a + S (length ks)) (ashape a)) as <-.
    { replace (arank a + S (length ks)) with (arank a + 1 + length ks) by lia.
      apply ins_at_cons; auto; try lia; unfold arank; lia. }
    apply tab_ext. intros idx Hidx. rewrite get_tab.
    + rewrite drop_at_cons by (auto; lia). reflexivity.
    + eapply inb_drop; [|exact Hidx]. rewrite ins_at_length.
      pose proof (drop_seq_length ks (arank a + 1 + length ks) 0) as D.
      rewrite filter_mem_length in D; auto; [lia|]. intros q Hq. specialize (B q (or_intror Hq)). lia.
  - right. exists EValue, EValue. unfold nd_unsqueeze. rewrite N1, N2. cbn [andb length]. rewrite F. split; [reflexivity|].
    assert (nodupb [k] = true) as -> by reflexivity. cbn [andb].
    destruct (forallb (fun k0 => k0 <? arank a + 1) [k]) eqn:G; cbn [guard bind]; [|reflexivity].
    set (b := tab (akind a) (ins_at [k] 1 0 (arank a + 1) (ashape a)) (fun idx => get a (drop_at [k] 0 idx))).
    assert (RB : arank b = arank a + 1) by (unfold arank, b; simpl; apply ins_at_length).
    assert (forallb (fun k0 => k0 <? arank b + length ks) ks = false) as ->.
    { apply not_true_is_false. intros K. rewrite forallb_forall in K. simpl in G. rewrite andb_true_r in G.
      apply Nat.ltb_lt in G. apply not_true_iff_false in F. apply F. apply forallb_forall.
      intros q [<-|Hq]; apply Nat.ltb_lt; [lia|]. apply K in Hq. apply Nat.ltb_lt in Hq. lia. }
    reflexivity.
Qed.

Lemma unsqueeze_nil a : arr_wf a -> nd_unsqueeze [] a = Ok a.
Proof.
  intros W. unfold nd_unsqueeze. cbn [nodupb forallb andb guard bind length]. rewrite Nat.add_0_r. f_equal.
  unfold arank. rewrite ins_at_none by reflexivity. transitivity (tab (akind a) (ashape a) (get a)); [|apply tab_get; exact W]. apply tab_ext. intros idx _.
  rewrite drop_at_none by reflexivity. reflexivity.
Qed.

Theorem torch_unsqueeze_ok axes a b : increasing axes -> arr_wf a ->
  (torch_unsqueeze axes a = Ok b <-> nd_unsqueeze axes a = Ok b).
Proof.
  revert a. induction axes as [|k ks IH]; intros a HI W.
  - rewrite unsqueeze_nil by auto. reflexivity.
  - assert (HK : increasing ks) by (inversion HI; auto).
    cbn [torch_unsqueeze].
    assert (E : nd_unsqueeze (k :: ks) a = Ok b <-> (let* c := nd_unsqueeze [k] a in nd_unsqueeze ks c) = Ok b).
    { destruct (unsqueeze_step k ks a HI) as [->|(e & e' & -> & ->)]; [reflexivity|]. split; discriminate. }
    rewrite E. destruct (nd_unsqueeze [k] a) as [c|] eqn:C; cbn [bind]; [|reflexivity]. apply IH; auto.
    unfold nd_unsqueeze in C. apply bind_ok in C as (u & _ & C). injection C as <-. apply nd_tab_wf; auto.
Qed.

(** torch_backend.py:84-95 [pad].  [torch.nn.functional.pad] reads its amounts
    from the last axis to the first one, and replicates for one to three axes
    besides the two added here.  (Its restrictions on the element type are not
    modelled.) *)
Definition torch_pad (a : arr) (pads : list (Z * Z)) : res arr :=
  let* _ := guard ((1 <=? arank a) && (arank a <=? 3)) EValue in
  nd_edge_pad a (rev pads).

(** * Removal in decreasing order *)
Lemma nth_drop ks k sh : Forall (lt k) ks -> forall p j, p + j = k -> nth j (drop_at ks p sh) 0 = nth j sh 0.
Proof.
  intros HF. induction sh as [|x sh IH]; intros p j Hj; cbn [drop_at]; auto.
  rewrite (mem_above k ks p) by (auto; lia). destruct j as [|j]; simpl; auto. apply IH. lia.
Qed.

Lemma inb_ins ks n : forall p sh idx, length sh = n -> (forall j, j < n -> mem (p + j) ks = true -> 0 < nth j sh 0) ->
  inb (drop_at ks p sh) idx -> inb sh (ins_at ks 0 p n idx).
Proof.
  induction n as [|n IH]; intros p sh idx HL HP H.
  - destruct sh; [|discriminate]. simpl. apply inb_nil.
  - destruct sh as [|d sh]; [discriminate|]. cbn [drop_at ins_at] in *.
    assert (HP' : forall j, j < n -> mem (S p + j) ks = true -> 0 < nth j sh 0).
    { intros j Hj Hm. apply (HP (S j)); [lia|]. rewrite Nat.add_succ_r. exact Hm. }
    destruct (mem p ks) eqn:E.
    + apply inb_cons. split; [apply (HP 0); [lia|rewrite Nat.add_0_r; auto]|]. apply IH; auto.
    + destruct idx as [|x idx]; [apply inb_length in H; discriminate|]. apply inb_cons in H as [H1 H].
      apply inb_cons. split; auto.
Qed.

Lemma nth_pos_length {A} k (l : list A) d : nth k l d <> d -> k < length l.
Proof. intros H. destruct (Nat.lt_ge_cases k (length l)); auto. rewrite nth_overflow in H by auto. congruence. Qed.

Lemma squeeze_step k ks a c : increasing (k :: ks) -> nd_squeeze (k :: ks) a = Ok c ->
  exists b, nd_squeeze ks a = Ok b /\ nth k (ashape b) 0 = 1 /\ nd_squeeze [k] b = Ok c.
Proof.
  intros H Hc. destruct (nodupb_cons_inc k ks H) as (N1 & N2 & HF & HI).
  unfold nd_squeeze in Hc. apply bind_ok in Hc as (u & G & Hc). injection Hc as <-.
  apply guard_ok in G. rewrite N1 in G. cbn [andb forallb] in G. apply andb_true_iff in G as [G1 G2].
  apply andb_true_iff in G1 as [_ G1]. apply Nat.eqb_eq in G1.
  unfold nd_squeeze at 1. rewrite N2, G2. cbn [andb guard bind]. eexists. split; [reflexivity|].
  set (b := tab _ _ _).
  assert (G3 : nth k (ashape b) 0 = 1) by (unfold b; simpl; rewrite (nth_drop ks k) by auto; exact G1).
  split; auto. unfold nd_squeeze. cbn [forallb].
  assert ((k <? arank b) = true) as ->.
  { apply Nat.ltb_lt. unfold arank. apply (nth_pos_length _ _ 0). rewrite G3. discriminate. }
  rewrite G3. cbn [Nat.eqb andb guard bind]. 
  assert (nodupb [k] = true) as -> by reflexivity. cbn [andb guard bind]. f_equal. unfold b at 1 2. cbn [akind ashape tab].
  rewrite drop_at_cons by (auto; lia). apply tab_ext. intros idx Hidx.
  assert (LB : arank b < arank a \/ arank b = arank a) .
  { unfold arank, b. simpl. clear. generalize 0. induction (ashape a) as [|x l IH]; intros p; simpl; auto.
    specialize (IH (S p)). destruct (mem p ks); simpl; lia. }
  assert (LI : length idx + 1 = arank b).
  { apply inb_length in Hidx. rewrite Hidx. rewrite <- drop_at_cons by (auto; lia).
    change (drop_at ks 0 (ashape a)) with (ashape b). unfold arank.
    assert (KB : k < length (ashape b)) by (apply (nth_pos_length _ _ 0); rewrite G3; discriminate).
    clear -KB. assert (forall p l, p <= k -> k < p + length l -> length (drop_at [k] p l) + 1 = length l) as Q.
    { intros p l. revert p. induction l as [|x l IH]; intros p Hp Hk; cbn [drop_at length] in *; [lia|].
      rewrite mem_cons, mem_nil. destruct (p =? k) eqn:E; cbn [orb].
      - apply Nat.eqb_eq in E. subst. rewrite drop_at_none; [lia|]. intros q Hq. rewrite mem_cons, mem_nil.
        destruct (q =? k) eqn:Q; [apply Nat.eqb_eq in Q; lia|reflexivity].
      - apply Nat.eqb_neq in E. cbn [length]. specialize (IH (S p)). lia. }
    apply Q; lia. }
  unfold b at 1. rewrite get_tab.
  - rewrite ins_at_cons; auto; try lia.
    assert (KB : k < length (ashape b)) by (apply (nth_pos_length _ _ 0); rewrite G3; discriminate). unfold arank in *. lia.
  - change (drop_at ks 0 (ashape a)) with (ashape b). apply inb_ins; auto.
    + intros j Hj Hm. rewrite mem_cons, mem_nil, orb_false_r in Hm. simpl in Hm. apply Nat.eqb_eq in Hm. subst j. lia.
    + unfold b. cbn [ashape tab]. rewrite drop_at_cons by (auto; lia). exact Hidx.
Qed.

Lemma squeeze_nil a : arr_wf a -> nd_squeeze [] a = Ok a.
Proof.
  intros W. unfold nd_squeeze. cbn [nodupb forallb andb guard bind length]. f_equal.
  rewrite drop_at_none by reflexivity. transitivity (tab (akind a) (ashape a) (get a)); [|apply tab_get; exact W]. apply tab_ext. intros idx Hi.
  unfold arank. rewrite <- (inb_length _ _ Hi). rewrite ins_at_none by reflexivity. reflexivity.
Qed.

Lemma torch_squeeze_app l1 l2 a : torch_squeeze (l1 ++ l2) a = let* b := torch_squeeze l1 a in torch_squeeze l2 b.
Proof.
  revert a. induction l1 as [|k l1 IH]; intros a; cbn [app torch_squeeze bind]; auto.
  destruct (torch_squeeze1 k a); cbn [bind]; auto.
Qed.

Lemma torch_squeeze1_ok k a c : nth k (ashape a) 0 = 1 -> torch_squeeze1 k a = Ok c <-> nd_squeeze [k] a = Ok c.
Proof.
  intros H. unfold torch_squeeze1. rewrite H. cbn [Nat.eqb].
  assert ((k <? arank a) = true) as ->.
  { apply Nat.ltb_lt. unfold arank. apply (nth_pos_length _ _ 0). rewrite H. discriminate. }
  reflexivity.
Qed.

Theorem torch_squeeze_rev axes a c : increasing axes -> arr_wf a ->
  nd_squeeze axes a = Ok c -> torch_squeeze (rev axes) a = Ok c.
Proof.
  revert c. induction axes as [|k ks IH]; intros c HI W H.
  - rewrite squeeze_nil in H by auto. exact H.
  - destruct (squeeze_step k ks a c HI H) as (b & H1 & H2 & H3). inversion HI; subst.
    cbn [rev]. rewrite torch_squeeze_app, (IH b) by auto. cbn [bind torch_squeeze].
    apply (torch_squeeze1_ok k b c) in H3; auto. rewrite H3. reflexivity.
Qed.

End Torch.
