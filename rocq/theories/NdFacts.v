(** Index laws of the NumPy primitives. *)
From Verif Require Import Base Scalar Tensor Types Sym Phi Den Typing NdOps.

Lemma nodupb_NoDup l : nodupb l = true <-> NoDup l.
Proof.
  induction l as [|x l IH]; simpl; split; intros H; auto.
  - constructor.
  - apply andb_true_iff in H as [H1 H2]. constructor; [|apply IH; auto].
    apply negb_true_iff in H1. apply mem_not_In in H1. auto.
  - inversion H; subst. apply andb_true_iff. split; [|apply IH; auto].
    apply negb_true_iff. apply mem_not_In. auto.
Qed.

Lemma is_perm_spec pi r : is_perm pi r = true ->
  length pi = r /\ NoDup pi /\ (forall k, In k pi <-> k < r).
Proof.
  unfold is_perm. intros H. apply andb_true_iff in H as [L H]. apply Nat.eqb_eq in L.
  rewrite forallb_forall in H.
  assert (I : incl (seq 0 r) pi) by (intros k Hk; apply mem_In; auto).
  assert (I' : incl pi (seq 0 r)).
  { apply NoDup_length_incl; [apply seq_NoDup|rewrite seq_length; lia|exact I]. }
  split; [exact L|]. split.
  - apply (NoDup_incl_NoDup (seq_NoDup r 0)); [rewrite seq_length; lia|exact I].
  - intros k. split; intros Hk.
    + apply I' in Hk. apply in_seq in Hk. lia.
    + apply I. apply in_seq. lia.
Qed.

Lemma is_perm_intro pi r : length pi = r -> NoDup pi -> (forall k, In k pi -> k < r) -> is_perm pi r = true.
Proof.
  intros L N H. unfold is_perm. apply andb_true_iff. split; [apply Nat.eqb_eq; auto|].
  apply forallb_forall. intros k Hk. apply mem_In.
  assert (I : incl pi (seq 0 r)) by (intros j Hj; apply in_seq; specialize (H j Hj); lia).
  apply (NoDup_length_incl N) in I; [auto|rewrite seq_length; lia].
Qed.

Lemma pos_spec k l : In k l -> pos k l < length l /\ nth (pos k l) l 0 = k.
Proof.
  intros H. unfold pos. destruct (index_of_In _ _ H) as [j E]. rewrite E. apply index_of_Some in E. auto.
Qed.

Lemma nth_map_nth (pi idx : list nat) j : j < length pi ->
  nth j (map (fun p => nth p idx 0) pi) 0 = nth (nth j pi 0) idx 0.
Proof.
  intros H. rewrite (nth_indep _ 0 (nth 0 idx 0)) by (rewrite map_length; auto).
  rewrite (map_nth (fun p => nth p idx 0)). reflexivity.
Qed.

Lemma map_nth_seq (l : list nat) : map (fun k => nth k l 0) (seq 0 (length l)) = l.
Proof.
  apply (nth_ext_len _ _ 0); [rewrite map_length, seq_length; auto|].
  rewrite map_length, seq_length. intros k Hk. rewrite nth_map_nth by (rewrite seq_length; auto).
  rewrite seq_nth by auto. reflexivity.
Qed.

Lemma perm_back pi r idx : is_perm pi r = true -> length idx = r ->
  map (fun k => nth (pos k pi) (map (fun p => nth p idx 0) pi) 0) (seq 0 r) = idx.
Proof.
  intros HP L. apply is_perm_spec in HP as (LP & ND & HI).
  transitivity (map (fun k => nth k idx 0) (seq 0 (length idx))); [|apply map_nth_seq].
  rewrite L. apply map_ext_in. intros k Hk. apply in_seq in Hk.
  assert (K : In k pi) by (apply HI; lia). destruct (pos_spec _ _ K) as [P1 P2].
  rewrite nth_map_nth by auto. rewrite P2. reflexivity.
Qed.

Lemma inb_perm pi r sh idx : is_perm pi r = true -> length sh = r -> inb sh idx ->
  inb (map (fun p => nth p sh 0) pi) (map (fun p => nth p idx 0) pi).
Proof.
  intros HP L H. apply is_perm_spec in HP as (LP & ND & HI).
  apply inb_of_nth; rewrite !map_length; auto. intros k Hk.
  rewrite !nth_map_nth by auto. apply inb_nth; auto. rewrite L. apply HI. apply nth_In; auto.
Qed.

(** Positions in and out of a set of axes. *)
Lemma drop_ins axes v n : forall p l,
  length l = length (filter (fun q => negb (mem q axes)) (seq p n)) ->
  drop_at axes p (ins_at axes v p n l) = l.
Proof.
  induction n as [|n IH]; simpl; intros p l H.
  - destruct l; simpl in H; auto; lia.
  - destruct (mem p axes) eqn:E; simpl in *.
    + rewrite E. apply IH; auto.
    + destruct l as [|x l]; simpl in H; [lia|]. simpl. rewrite E. f_equal. apply IH. lia.
Qed.

Lemma ins_drop axes v l : forall p,
  (forall k, k < length l -> mem (p + k) axes = true -> nth k l 0 = v) ->
  ins_at axes v p (length l) (drop_at axes p l) = l.
Proof.
  induction l as [|x l IH]; simpl; intros p H; auto.
  assert (H' : forall k, k < length l -> mem (S p + k) axes = true -> nth k l 0 = v).
  { intros k Hk Hm. apply (H (S k)); [lia|]. rewrite Nat.add_succ_r. exact Hm. }
  destruct (mem p axes) eqn:E.
  - rewrite IH by auto. f_equal. symmetry. apply (H 0); [lia|]. rewrite Nat.add_0_r. auto.
  - rewrite IH by auto. reflexivity.
Qed.

Lemma ins_at_length axes v n : forall p l, length (ins_at axes v p n l) = n.
Proof.
  induction n as [|n IH]; simpl; intros p l; auto. destruct (mem p axes); simpl; [rewrite IH; auto|].
  destruct l; simpl; rewrite IH; auto.
Qed.

(** [ins_at] and [drop_at] on a list of labelled positions: the positions of
    [into] whose label satisfies [P] are kept. *)
Fixpoint absent (P : nat -> bool) (p : nat) (into : list nat) : list nat :=
  match into with
  | [] => []
  | x :: into => if P x then absent P (S p) into else p :: absent P (S p) into
  end.

Lemma absent_range P into : forall p q, In q (absent P p into) -> p <= q < p + length into.
Proof.
  induction into as [|x into IH]; simpl; intros p q H; [tauto|].
  destruct (P x); simpl in H; [apply IH in H; lia|]. destruct H as [->|H]; [lia|]. apply IH in H; lia.
Qed.

Lemma absent_NoDup P into : forall p, NoDup (absent P p into).
Proof.
  induction into as [|x into IH]; simpl; intros p; [constructor|].
  destruct (P x); auto. constructor; auto. intros H. apply absent_range in H. lia.
Qed.

Lemma absent_length P into : forall p, length (absent P p into) + length (filter P into) = length into.
Proof.
  induction into as [|x into IH]; simpl; intros p; auto.
  destruct (P x); simpl; specialize (IH (S p)); lia.
Qed.

Lemma mem_absent_below P into p q : q < p -> mem q (absent P p into) = false.
Proof. intros H. apply mem_not_In. intros Hi. apply absent_range in Hi. lia. Qed.

Lemma mem_absent_above P into p q : p + length into <= q -> mem q (absent P p into) = false.
Proof. intros H. apply mem_not_In. intros Hi. apply absent_range in Hi. lia. Qed.

Lemma ins_at_none axes v l : forall p, (forall q, p <= q -> mem q axes = false) ->
  ins_at axes v p (length l) l = l.
Proof.
  induction l as [|x l IH]; simpl; intros p H; auto. rewrite H by lia. f_equal. apply IH. intros. apply H; lia.
Qed.

Lemma drop_at_none axes l : forall p, (forall q, p <= q -> mem q axes = false) -> drop_at axes p l = l.
Proof.
  induction l as [|x l IH]; simpl; intros p H; auto. rewrite H by lia. f_equal. apply IH. intros. apply H; lia.
Qed.

Lemma ins_at_ext a1 a2 v n : forall p l, (forall q, p <= q -> mem q a1 = mem q a2) ->
  ins_at a1 v p n l = ins_at a2 v p n l.
Proof.
  induction n as [|n IH]; simpl; intros p l H; auto. rewrite (H p) by lia.
  destruct (mem p a2); [f_equal; apply IH; intros; apply H; lia|].
  destruct l; f_equal; apply IH; intros; apply H; lia.
Qed.

Lemma drop_at_ext a1 a2 l : forall p, (forall q, p <= q -> mem q a1 = mem q a2) ->
  drop_at a1 p l = drop_at a2 p l.
Proof.
  induction l as [|x l IH]; simpl; intros p H; auto. rewrite (H p) by lia.
  destruct (mem p a2); [|f_equal]; apply IH; intros; apply H; lia.
Qed.

Lemma ins_at_labels P (f : nat -> nat) v into rest : forall p,
  ins_at (absent P p into) v p (length into + length rest) (map f (filter P into) ++ rest)
  = map (fun i => if P i then f i else v) into ++ rest.
Proof.
  induction into as [|x into IH]; intros p.
  - simpl. apply ins_at_none. intros; reflexivity.
  - cbn [absent length map app filter Nat.add]. cbn [ins_at].
    destruct (P x) eqn:E.
    + rewrite mem_absent_below by lia. cbn [map app]. f_equal. apply IH.
    + cbn [mem existsb]. rewrite Nat.eqb_refl. cbn [orb]. f_equal.
      rewrite (ins_at_ext _ (absent P (S p) into)); [apply IH|].
      intros q Hq. unfold mem. cbn [existsb]. destruct (q =? p) eqn:Q; [apply Nat.eqb_eq in Q; lia|reflexivity].
Qed.

Lemma drop_at_labels P (g : nat -> nat) into rest : forall p,
  drop_at (absent P p into) p (map g into ++ rest) = map g (filter P into) ++ rest.
Proof.
  induction into as [|x into IH]; intros p.
  - simpl. apply drop_at_none. intros; reflexivity.
  - cbn [absent map app filter drop_at]. destruct (P x) eqn:E.
    + rewrite mem_absent_below by lia. cbn [map app]. f_equal. apply IH.
    + cbn [mem existsb]. rewrite Nat.eqb_refl. cbn [orb].
      rewrite (drop_at_ext _ (absent P (S p) into)); [apply IH|].
      intros q Hq. unfold mem. cbn [existsb]. destruct (q =? p) eqn:Q; [apply Nat.eqb_eq in Q; lia|reflexivity].
Qed.

Lemma set_nth_app_r {A} (l1 l2 : list A) k x : set_nth (length l1 + k) x (l1 ++ l2) = l1 ++ set_nth k x l2.
Proof. induction l1; simpl; congruence. Qed.

Lemma set_nth_app_l {A} (l1 l2 : list A) k x : k < length l1 -> set_nth k x (l1 ++ l2) = set_nth k x l1 ++ l2.
Proof.
  revert k. induction l1; simpl; intros k H; [lia|]. destruct k; simpl; auto. rewrite IHl1 by lia. auto.
Qed.

Lemma inb_set_nth sh idx k d v : inb sh idx -> k < length sh -> v < d -> inb (set_nth k d sh) (set_nth k v idx).
Proof.
  intros H Hk Hv. pose proof (inb_length _ _ H) as L. apply inb_of_nth; rewrite !set_nth_length; auto.
  intros j Hj. rewrite !nth_set_nth by lia. destruct (j =? k); auto. apply inb_nth; auto.
Qed.

Lemma set_nth_set_nth {A} k (x y : A) l : set_nth k x (set_nth k y l) = set_nth k x l.
Proof. revert k. induction l; destruct k; simpl; congruence. Qed.

Lemma set_nth_same {A} k (x d : A) l : nth k l d = x -> k < length l -> set_nth k x l = l.
Proof. revert k. induction l; destruct k; simpl; intros; try lia; f_equal; auto. apply IHl; auto. lia. Qed.

Section NdFacts.
Context {FO : FloatOps}.

Lemma nd_tab_wf (a : arr) sh f : arr_wf a -> arr_wf (tab (akind a) sh (fun idx => get a (f idx))).
Proof. intros W. apply tab_wf. intros. apply get_kind_any; auto. Qed.

Lemma transpose_spec pi a : arr_wf a -> is_perm pi (arank a) = true ->
  exists b, nd_transpose pi a = Ok b /\ arr_wf b /\ akind b = akind a /\
  ashape b = map (fun p => nth p (ashape a) 0) pi /\
  (forall idx, inb (ashape a) idx -> get b (map (fun p => nth p idx 0) pi) = get a idx).
Proof.
  intros W HP. unfold nd_transpose. rewrite HP. cbn [bind guard]. eexists. split; [reflexivity|].
  split; [apply nd_tab_wf; auto|]. split; [reflexivity|]. split; [reflexivity|].
  intros idx Hi. rewrite get_tab; [|eapply inb_perm; eauto].
  rewrite perm_back with (r := arank a); auto. apply inb_length in Hi. exact Hi.
Qed.

Lemma unsqueeze_spec axes a : arr_wf a -> NoDup axes ->
  (forall k, In k axes -> k < arank a + length axes) ->
  exists b, nd_unsqueeze axes a = Ok b /\ arr_wf b /\ akind b = akind a /\
  ashape b = ins_at axes 1 0 (arank a + length axes) (ashape a) /\
  (forall idx, inb (ashape b) idx -> get b idx = get a (drop_at axes 0 idx)).
Proof.
  intros W ND H. unfold nd_unsqueeze.
  assert (G : nodupb axes && forallb (fun k => k <? arank a + length axes) axes = true).
  { apply andb_true_iff. split; [apply nodupb_NoDup; auto|]. apply forallb_forall. intros k Hk.
    apply Nat.ltb_lt. auto. }
  rewrite G. cbn [bind guard]. eexists. split; [reflexivity|].
  split; [apply nd_tab_wf; auto|]. split; [reflexivity|]. split; [reflexivity|].
  intros idx Hi. rewrite get_tab by exact Hi. reflexivity.
Qed.

Lemma repeat_spec ax n a : arr_wf a -> ax < arank a -> nth ax (ashape a) 0 = 1 ->
  exists b, nd_repeat ax (Z.of_nat n) a = Ok b /\ arr_wf b /\ akind b = akind a /\
  ashape b = set_nth ax n (ashape a) /\
  (forall idx, inb (ashape b) idx -> get b idx = get a (set_nth ax 0 idx)).
Proof.
  intros W H H1. unfold nd_repeat.
  assert (G1 : (ax <? arank a) = true) by (apply Nat.ltb_lt; auto).
  assert (G2 : (0 <=? Z.of_nat n)%Z = true) by (apply Z.leb_le; lia).
  rewrite G1, G2. cbn [bind guard]. rewrite H1, Nat2Z.id, Nat.mul_1_l. eexists. split; [reflexivity|].
  split; [apply nd_tab_wf; auto|]. split; [reflexivity|]. split; [reflexivity|].
  intros idx Hi. rewrite get_tab by exact Hi. simpl in Hi.
  assert (K : nth ax idx 0 < n).
  { apply inb_nth with (k := ax) in Hi; [|rewrite set_nth_length; auto].
    rewrite nth_set_nth in Hi by exact H. rewrite Nat.eqb_refl in Hi. exact Hi. }
  rewrite Nat.div_small by exact K. reflexivity.
Qed.

End NdFacts.
