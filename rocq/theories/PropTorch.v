(** Properties C34, C35, C38: einsum subscripts, and the torch backend. *)
From Coq Require Import Sorted.
From Verif Require Import Base Scalar Tensor Types Sym Phi Den NdOps NdFacts IndexOps Yarr Codegen Subscripts Torch PropCodegen Compile Sample.

(** * C34 *)

Theorem C34_same_letter operands result subs : to_einsum_subs operands result = Ok subs ->
  exists letter : nat -> nat,
    fst subs = map (map letter) operands /\ snd subs = map letter result /\
    (forall x y, In x (concat operands ++ result) -> In y (concat operands ++ result) -> (letter x = letter y <-> x = y)) /\
    (forall x, In x (concat operands ++ result) -> letter x < 26).
Proof.
  unfold to_einsum_subs. intros H. apply bind_ok in H as (al & A & H). injection H as <-.
  assert (L0 : lettered []) by (split; [constructor|split; [reflexivity|simpl; lia]]).
  destruct (add_letters_spec _ _ _ L0 A) as (L & I & _).
  exists (fun x => match assoc x al with Some c => c | None => 0 end). split; [reflexivity|]. split; [reflexivity|]. split.
  - intros x y Hx Hy. split; [|intros <-; reflexivity].
    destruct (assoc_some x al (I x Hx)) as (c & C). destruct (assoc_some y al (I y Hy)) as (d & D). rewrite C, D. intros <-.
    exact (lettered_inj al x y c L C D).
  - intros x Hx. destruct (assoc_some x al (I x Hx)) as (c & C). rewrite C. apply assoc_in in C.
    destruct L as (_ & L2 & L3). apply (in_map snd) in C. rewrite L2 in C. apply in_seq in C. simpl in C. lia.
Qed.

Theorem C34_up_to_26_axes operands result :
  (exists subs, to_einsum_subs operands result = Ok subs) <->
  length (nodup Nat.eq_dec (concat operands ++ result)) <= 26.
Proof.
  assert (L0 : lettered []) by (split; [constructor|split; [reflexivity|simpl; lia]]).
  unfold to_einsum_subs. split.
  - intros (subs & H). apply bind_ok in H as (al & A & H). destruct (add_letters_spec _ _ _ L0 A) as (L & I & _).
    destruct L as (_ & _ & L3). eapply Nat.le_trans; [|exact L3]. rewrite <- (map_length fst al).
    apply NoDup_incl_length; [apply NoDup_nodup|]. intros x Hx. apply nodup_In in Hx. auto.
  - intros H. destruct (add_letters_ok _ [] L0 H) as (al & ->). eexists. reflexivity.
Qed.

Example C34_example :
  to_einsum_subs [[7; 3]; [3; 9]] [7; 9] = Ok ([[0; 1]; [1; 2]], [0; 2]) /\
  to_einsum_subs [seq 0 20; seq 10 17] [] = Err EShape.
Proof. split; reflexivity. Qed.

(** * C35 *)

Section Torch.
Context {FO : FloatOps}.

(** [b] is [a] with axes of size one added at the positions [axes]. *)
Definition axes_added (axes : list nat) (a b : arr) : Prop :=
  akind b = akind a /\ arr_wf b /\ length (ashape b) = length (ashape a) + length axes /\
  (forall k, In k axes -> nth k (ashape b) 0 = 1) /\
  let kept (l : list nat) := map (fun k => nth k l 0) (filter (fun k => negb (existsb (Nat.eqb k) axes)) (seq 0 (length l))) in
  kept (ashape b) = ashape a /\
  forall idx, inb (ashape b) idx -> get b idx = get a (kept idx).

Lemma kept_drop axes (l : list nat) : forall p,
  drop_at axes p l = map (fun k => nth (k - p) l 0) (filter (fun k => negb (mem k axes)) (seq p (length l))).
Proof.
  induction l as [|x l IH]; intros p; simpl; auto. rewrite IH. destruct (mem p axes); simpl.
  - apply map_ext_in. intros k Hk. apply filter_In in Hk as [Hk _]. apply in_seq in Hk.
    destruct (k - p) as [|m] eqn:E; [lia|]. f_equal. lia.
  - f_equal; [rewrite Nat.sub_diag; reflexivity|]. apply map_ext_in. intros k Hk. apply filter_In in Hk as [Hk _].
    apply in_seq in Hk. destruct (k - p) as [|m] eqn:E; [lia|]. f_equal. lia.
Qed.
Lemma kept_drop0 axes (l : list nat) :
  drop_at axes 0 l = map (fun k => nth k l 0) (filter (fun k => negb (mem k axes)) (seq 0 (length l))).
Proof. rewrite kept_drop. apply map_ext. intros k. rewrite Nat.sub_0_r. reflexivity. Qed.

Lemma drop_ins_shape axes v n : forall p sh, length (drop_at axes p (seq p n)) = length sh ->
  drop_at axes p (ins_at axes v p n sh) = sh.
Proof.
  induction n as [|n IH]; intros p sh H; simpl in *.
  - destruct sh; [reflexivity|discriminate].
  - destruct (mem p axes) eqn:E.
    + cbn [drop_at]. rewrite E. auto.
    + destruct sh as [|d sh]; [discriminate|]. cbn [drop_at]. rewrite E. f_equal. apply IH. simpl in H. lia.
Qed.
Lemma nth_ins axes v n : forall p k sh, mem (p + k) axes = true -> k < n -> nth k (ins_at axes v p n sh) 0 = v.
Proof.
  induction n as [|n IH]; intros p k sh H Hk; [lia|]. cbn [ins_at]. destruct k as [|k].
  - rewrite Nat.add_0_r in H. rewrite H. reflexivity.
  - assert (mem (S p + k) axes = true) by (rewrite <- H; f_equal; lia).
    destruct (mem p axes); simpl; [apply IH; auto; lia|]. destruct sh; apply IH; auto; lia.
Qed.

Lemma unsqueeze_added axes a b : arr_wf a -> nd_unsqueeze axes a = Ok b -> axes_added axes a b.
Proof.
  intros W H. unfold nd_unsqueeze in H. apply bind_ok in H as (u & G & H). injection H as <-. apply guard_ok in G.
  apply andb_true_iff in G as [G1 G2]. apply nodupb_NoDup in G1. rewrite forallb_forall in G2.
  assert (L : length (drop_at axes 0 (seq 0 (arank a + length axes))) = length (ashape a)).
  { pose proof (drop_seq_length axes (arank a + length axes) 0) as D. rewrite filter_mem_length in D; auto.
    - unfold arank in *. lia.
    - intros k Hk. apply Nat.ltb_lt. auto. }
  assert (S0 := drop_ins_shape axes 1 (arank a + length axes) 0 (ashape a) L).
  split; [reflexivity|]. split; [|split; [|split; [|split]]].
  - apply nd_tab_wf; auto.
  - cbn [ashape tab]. rewrite ins_at_length. reflexivity.
  - intros k Hk. cbn [ashape tab]. apply nth_ins; [apply mem_In; auto|]. apply Nat.ltb_lt. auto.
  - cbn [ashape tab]. etransitivity; [|exact S0]. symmetry. apply kept_drop0.
  - intros idx Hi. rewrite get_tab by exact Hi. f_equal. apply kept_drop0.
Qed.

Theorem C35_unsqueeze axes a b : StronglySorted lt axes -> arr_wf a ->
  torch_unsqueeze axes a = Ok b -> axes_added axes a b.
Proof. intros H W T. apply unsqueeze_added; auto. apply (torch_unsqueeze_ok axes a b H W). exact T. Qed.

(** The same as NumPy's, which takes all the axes at once. *)
Theorem C35_unsqueeze_as_numpy axes a b : StronglySorted lt axes -> arr_wf a ->
  (torch_unsqueeze axes a = Ok b <-> nd_unsqueeze axes a = Ok b).
Proof. exact (torch_unsqueeze_ok axes a b). Qed.

Theorem C35_squeeze_single k a b : nd_squeeze [k] a = Ok b -> torch_squeeze [k] a = Ok b.
Proof.
  intros H. assert (nth k (ashape a) 0 = 1) as E.
  { unfold nd_squeeze in H. apply bind_ok in H as (u & G & _). apply guard_ok in G. cbn [forallb] in G.
    rewrite andb_true_r in G. apply andb_true_iff in G as [_ G]. apply andb_true_iff in G as [_ G]. apply Nat.eqb_eq. auto. }
  cbn [torch_squeeze]. apply (torch_squeeze1_ok k a b) in H; auto. rewrite H. reflexivity.
Qed.

Theorem C35_squeeze_decreasing axes a b : StronglySorted lt axes -> arr_wf a ->
  nd_squeeze axes a = Ok b -> torch_squeeze (rev axes) a = Ok b.
Proof. exact (torch_squeeze_rev axes a b). Qed.
End Torch.

(** In increasing order, an axis is left over, or the axis does not exist. *)
Theorem C35_squeeze_refuted :
  (exists a : @arr zfloat, arr_wf a /\ nd_squeeze [0; 1] a = Ok (farr [3] [1; 2; 3]%Z) /\
     torch_squeeze [0; 1] a = Ok (farr [1; 3] [1; 2; 3]%Z)) /\
  (exists a : @arr zfloat, arr_wf a /\ nd_squeeze [0; 2] a = Ok (farr [2] [1; 2]%Z) /\ torch_squeeze [0; 2] a = Err EShape).
Proof.
  split; [exists (farr [1; 1; 3] [1; 2; 3]%Z)|exists (farr [1; 2; 1] [1; 2]%Z)];
    (split; [split; [reflexivity|repeat constructor]|]); split; vm_compute; reflexivity.
Qed.

(** In decreasing order, insertion differs. *)
Theorem C35_unsqueeze_order_refuted :
  exists a : @arr zfloat, arr_wf a /\ nd_unsqueeze [1; 0] a = Ok (farr [1; 1; 2] [1; 2]%Z) /\
    torch_unsqueeze [1; 0] a = Ok (farr [1; 2; 1] [1; 2]%Z).
Proof.
  exists (farr [2] [1; 2]%Z). split; [split; [reflexivity|repeat constructor]|]. split; vm_compute; reflexivity.
Qed.

Example C35_example :
  torch_unsqueeze [0; 2; 3] (farr [2; 2] [1; 2; 3; 4]%Z) = Ok (farr [1; 2; 1; 1; 2] [1; 2; 3; 4]%Z) /\
  torch_squeeze (rev [0; 2]) (farr [1; 2; 1] [1; 2]%Z) = Ok (farr [2] [1; 2]%Z) /\
  StronglySorted lt [0; 2; 3].
Proof. split; [vm_compute; reflexivity|]. split; [vm_compute; reflexivity|]. repeat constructor. Qed.

(** * C38 *)

Section Pads.
Context {FO : FloatOps}.

(** Axis [k] gets the amounts meant for the [k]-th axis from the end. *)
Theorem C38_reversed a pads b : torch_pad a pads = Ok b ->
  length (ashape b) = length (ashape a) /\
  forall k, k < length (ashape a) ->
    let '(l, r) := nth (length (ashape a) - S k) pads (0, 0)%Z in
    Z.of_nat (nth k (ashape b) 0) = (l + Z.of_nat (nth k (ashape a) 0%nat) + r)%Z.
Proof.
  unfold torch_pad, nd_edge_pad. intros H. apply bind_ok in H as (u & G & H). apply bind_ok in H as (u1 & G1 & H).
  apply bind_ok in H as (u2 & G2 & H). apply bind_ok in H as (u3 & _ & H). injection H as <-.
  apply guard_ok in G1, G2. apply Nat.eqb_eq in G1. cbn [ashape tab]. unfold arank in *. unfold pads_ok in G2.
  assert (Q : forall sh ps, length ps = length sh -> forallb (fun p => (0 <=? fst p)%Z && (0 <=? snd p)%Z) ps = true ->
     length (edge_sh sh ps) = length sh /\
     forall k, k < length sh -> let '(l, r) := nth k ps (0, 0)%Z in
       Z.of_nat (nth k (edge_sh sh ps) 0) = (l + Z.of_nat (nth k sh 0%nat) + r)%Z).
  { induction sh as [|n sh IH]; intros [|[l r] ps] HL HP; try discriminate.
    - split; [reflexivity|]. intros k Hk. simpl in Hk. lia.
    - cbn [forallb fst snd] in HP. apply andb_true_iff in HP as [HP HQ]. apply andb_true_iff in HP as [H1 H2].
      apply Z.leb_le in H1, H2. destruct (IH ps) as [A B]; auto.
      change (edge_sh (n :: sh) ((l, r) :: ps)) with (n + Z.to_nat l + Z.to_nat r :: edge_sh sh ps).
      cbn [length]. split; [f_equal; exact A|].
      intros [|k] Hk; cbn [nth]; [lia|]. apply B. simpl in Hk. lia. }
  destruct (Q (ashape a) (rev pads) G1 G2) as [A B]. split; auto. intros k Hk. specialize (B k Hk).
  rewrite rev_nth in B by (rewrite rev_length in G1; lia). rewrite rev_length in G1. rewrite G1 in B. exact B.
Qed.

(** With the same amounts from both ends, as for a single axis, it is NumPy's
    padding. *)
Theorem C38_symmetric a pads b : 1 <= length (ashape a) <= 3 -> rev pads = pads ->
  (torch_pad a pads = Ok b <-> nd_edge_pad a pads = Ok b).
Proof.
  intros H R. unfold torch_pad. rewrite R.
  assert ((1 <=? arank a) && (arank a <=? 3) = true) as ->; [|reflexivity].
  apply andb_true_iff. split; apply Nat.leb_le; unfold arank; lia.
Qed.
End Pads.

(** array(lambda i, j: m[i, j], size=(2, 4)) for [m] of shape (2, 3): the last
    column is to be repeated; on torch the last row is repeated instead. *)
Definition pad_prog : @phi zfloat :=
  PVec 0 (ci 2) (PVec 1 (ci 4) (PGet (PGet (PConst (farr [2; 3] [1; 2; 3; 4; 5; 6]%Z)) (idx_ 0)) (idx_ 1))).

Theorem C38_program_refuted :
  exists y, lower (loops_only true) no_sizes 20 pad_prog = Ok y /\
    @den zfloat no_externs E0 pad_prog = Ok (VArr (farr [2; 4] [1; 2; 3; 3; 4; 5; 6; 6]%Z)) /\
    @yeval zfloat no_externs edge_pads R0 y = Ok (YA (farr [2; 4] [1; 2; 3; 3; 4; 5; 6; 6]%Z)) /\
    @yeval zfloat no_externs torch_pad R0 y = Ok (YA (farr [3; 3] [1; 2; 3; 4; 5; 6; 4; 5; 6]%Z)).
Proof. exists (code_of true pad_prog). repeat split; vm_compute; reflexivity. Qed.

Example C38_example :
  torch_pad (farr [3] [1; 2; 3]%Z) [(1, 2)]%Z = Ok (farr [6] [1; 1; 2; 3; 3; 3]%Z) /\
  torch_pad (farr [2; 2] [1; 2; 3; 4]%Z) [(0, 1); (0, 0)]%Z = Ok (farr [2; 3] [1; 2; 2; 3; 4; 4]%Z) /\
  nd_edge_pad (farr [2; 2] [1; 2; 3; 4]%Z) [(0, 1); (0, 0)]%Z = Ok (farr [3; 2] [1; 2; 3; 4; 3; 4]%Z).
Proof. repeat split; vm_compute; reflexivity. Qed.

Print Assumptions C34_same_letter.
Print Assumptions C34_up_to_26_axes.
Print Assumptions C35_unsqueeze.
Print Assumptions C35_unsqueeze_as_numpy.
Print Assumptions C35_squeeze_single.
Print Assumptions C35_squeeze_decreasing.
Print Assumptions C35_squeeze_refuted.
Print Assumptions C35_unsqueeze_order_refuted.
Print Assumptions C38_reversed.
Print Assumptions C38_symmetric.
Print Assumptions C38_program_refuted.
