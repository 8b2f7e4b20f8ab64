(** Array code computes well-formed arrays from well-formed arrays. *)
From Verif Require Import Base Scalar Tensor Types Sym Phi Den DenWf NdOps NdFacts Typing Term PhiTerm Yarr YTerm.

Section YWf.
Context {FO : FloatOps} {EX : Externs} {PO : PadOps}.

Definition yval_wf (v : yval) : Prop :=
  match v with YA a => arr_wf a | YT l => Forall arr_wf l end.
Definition yenv_wf (R : yenv) : Prop := forall s v, R s = Some v -> yval_wf v.

(** All embedded constants are well formed. *)
Definition yconsts_wf (e : yarr) : Prop := forall a, sub_of (YConst a) e -> arr_wf a.

(** What is asked of the external functions and of the padding routine. *)
Definition ext_wf : Prop := forall f l a, ext_call f l = Ok a -> arr_wf a.
Definition pad_wf : Prop := forall a p b, arr_wf a -> pad_call a p = Ok b -> arr_wf b.

Lemma ya_wf v a : yval_wf v -> ya v = Ok a -> arr_wf a.
Proof. destruct v; simpl; intros W H; [injection H as <-; auto|discriminate]. Qed.

Lemma mapM_ya_wf vs l : Forall yval_wf vs -> mapM ya vs = Ok l -> Forall arr_wf l.
Proof.
  intros W H. apply (mapM_all _ _ _ _ H). intros x y Hx Hy. rewrite Forall_forall in W.
  apply (ya_wf x); auto.
Qed.

Lemma yenv_wf_upd R s v : yenv_wf R -> yval_wf v -> yenv_wf (upd R s v).
Proof.
  intros H W s' v' E. destruct (sym_eq_dec s' s) as [->|N].
  - rewrite upd_eq in E. injection E as <-. exact W.
  - rewrite upd_neq in E by auto. apply (H s'); auto.
Qed.

Lemma tab_get_wf a sh f : arr_wf a -> arr_wf (tab (akind a) sh (fun idx => get a (f idx))).
Proof. intros W. apply tab_wf. intros. apply get_kind_any; auto. Qed.

Lemma nd_transpose_wf pi a b : arr_wf a -> nd_transpose pi a = Ok b -> arr_wf b.
Proof. unfold nd_transpose. intros W H. inv_bind. apply tab_get_wf; auto. Qed.
Lemma nd_unsqueeze_wf axes a b : arr_wf a -> nd_unsqueeze axes a = Ok b -> arr_wf b.
Proof. unfold nd_unsqueeze. intros W H. inv_bind. apply tab_get_wf; auto. Qed.
Lemma nd_squeeze_wf axes a b : arr_wf a -> nd_squeeze axes a = Ok b -> arr_wf b.
Proof. unfold nd_squeeze. intros W H. inv_bind. apply tab_get_wf; auto. Qed.
Lemma nd_repeat_wf ax z a b : arr_wf a -> nd_repeat ax z a = Ok b -> arr_wf b.
Proof. unfold nd_repeat. intros W H. inv_bind. apply tab_get_wf; auto. Qed.
Lemma nd_pick_wf ax l a b : arr_wf a -> nd_pick ax l a = Ok b -> arr_wf b.
Proof. unfold nd_pick. intros W H. inv_bind. apply tab_get_wf; auto. Qed.
Lemma nd_slice_wf l r a b : arr_wf a -> nd_slice l r a = Ok b -> arr_wf b.
Proof. unfold nd_slice. intros W H. inv_bind. apply tab_get_wf; auto. Qed.
Lemma nd_gather_wf ax a i b : arr_wf a -> nd_gather ax a i = Ok b -> arr_wf b.
Proof. unfold nd_gather. intros W H. inv_bind. apply tab_wf. intros. apply get_kind_any; auto. Qed.
Lemma nd_take_wf a l b : arr_wf a -> nd_take a l = Ok b -> arr_wf b.
Proof.
  unfold nd_take. intros W H. inv_bind. destruct (the_item 0 l) as [[[p i]|]|]; try discriminate.
  - unfold nd_take1 in Hk. inv_bind. apply tab_wf. intros. apply get_kind_any; auto.
  - injection Hk as <-. auto.
Qed.
Lemma nd_edge_pad_wf a p b : arr_wf a -> nd_edge_pad a p = Ok b -> arr_wf b.
Proof. unfold nd_edge_pad. intros W H. inv_bind. apply tab_get_wf; auto. Qed.
Lemma nd_dim_wf ax a b : nd_dim ax a = Ok b -> arr_wf b.
Proof. unfold nd_dim. intros H. inv_bind. apply ascalar_wf. Qed.
Lemma nd_range_wf z : arr_wf (nd_range z).
Proof. apply tab_wf. reflexivity. Qed.
Lemma nd_concat2_wf ax a b c : arr_wf a -> arr_wf b -> nd_concat2 ax a b = Ok c -> arr_wf c.
Proof.
  unfold nd_concat2. intros W W' H. inv_bind. apply tab_wf. intros idx _. cbv zeta.
  apply kind_eqb_eq in Hb1.
  destruct (nth ax idx 0 <? _); [|rewrite Hb1]; apply get_kind_any; auto.
Qed.
Lemma nd_concat_from_wf ax l : forall a c, arr_wf a -> Forall arr_wf l ->
  nd_concat_from ax a l = Ok c -> arr_wf c.
Proof.
  induction l as [|b l IH]; simpl; intros a c W Wl H; [injection H as <-; auto|].
  apply bind_ok in H as (d & Hd & H). inversion Wl; subst.
  apply (IH d); auto. apply (nd_concat2_wf ax a b); auto.
Qed.
Lemma nd_concat_wf ax l c : Forall arr_wf l -> nd_concat ax l = Ok c -> arr_wf c.
Proof.
  destruct l as [|a l]; simpl; intros W H; [discriminate|]. inversion W; subst.
  apply (nd_concat_from_wf ax l a); auto.
Qed.
Lemma nd_un_wf o a b : arr_wf a -> nd_un o a = Ok b -> arr_wf b.
Proof.
  unfold nd_un, nd_ew. intros W H. apply bind_ok in H as (sh & Hs & H).
  apply bind_ok in H as (k & Hk & H). injection H as <-. apply tab_wf. intros idx _. simpl in *.
  pose proof (sem_un_kind o (get a (bidx (ashape a) idx))) as Q. rewrite (get_kind_any a _ W) in Q.
  destruct (kind_un o (akind a)) as [k'|]; [|discriminate]. injection Hk as <-.
  destruct (sem_un o _); [|apply skind_sjunk]. simpl in Q. congruence.
Qed.
Lemma nd_bin_wf o a b c : arr_wf a -> arr_wf b -> nd_bin o a b = Ok c -> arr_wf c.
Proof.
  unfold nd_bin, nd_ew. intros W W' H. apply bind_ok in H as (sh & Hs & H).
  apply bind_ok in H as (k & Hk & H). injection H as <-. apply tab_wf. intros idx _. simpl in *.
  pose proof (sem_bin_kind o (get a (bidx (ashape a) idx)) (get b (bidx (ashape b) idx))) as Q.
  rewrite (get_kind_any a _ W), (get_kind_any b _ W') in Q.
  destruct (kind_bin o (akind a) (akind b)) as [k'|]; [|discriminate]. injection Hk as <-.
  destruct (sem_bin o _ _); [|apply skind_sjunk]. simpl in Q. congruence.
Qed.
Lemma nd_where_wf a b c d : arr_wf a -> arr_wf b -> arr_wf c -> nd_where a b c = Ok d -> arr_wf d.
Proof.
  unfold nd_where, nd_ew. intros W W' W'' H. apply bind_ok in H as (sh & Hs & H).
  apply bind_ok in H as (k & Hk & H). injection H as <-. apply tab_wf. intros idx _. simpl in *.
  pose proof (sem_where_kind (get a (bidx (ashape a) idx)) (get b (bidx (ashape b) idx))
                (get c (bidx (ashape c) idx))) as Q.
  rewrite (get_kind_any a _ W), (get_kind_any b _ W'), (get_kind_any c _ W'') in Q.
  destruct (kind_where (akind a) (akind b) (akind c)) as [k'|]; [|discriminate]. injection Hk as <-.
  destruct (sem_where _ _ _); [|apply skind_sjunk]. simpl in Q. congruence.
Qed.
Lemma nd_cast_wf k a b : arr_wf a -> nd_cast k a = Ok b -> arr_wf b.
Proof.
  unfold nd_cast. intros W H. destruct k.
  1,2: destruct (kind_eqb _ _); [injection H as <-; auto|discriminate].
  injection H as <-. apply tab_wf. intros idx _. destruct (get a idx); reflexivity.
Qed.
Lemma sbin_kind o k a b : kind_bin o k k = Some k -> skind a = k -> skind b = k -> skind (sbin o k a b) = k.
Proof.
  intros K Ha Hb. unfold sbin. pose proof (sem_bin_kind o a b) as Q. rewrite Ha, Hb, K in Q.
  destruct (sem_bin o a b); [|apply skind_sjunk]. simpl in Q. congruence.
Qed.
Lemma rop_kind r k k' : kind_bin (rop_bop r) k k = Some k' -> k' = k /\ k <> KBool.
Proof. destruct r, k; simpl; intros H; try discriminate; injection H as <-; split; congruence. Qed.
Lemma nd_reduce_wf r ax a b : arr_wf a -> nd_reduce r ax a = Ok b -> arr_wf b.
Proof.
  unfold nd_reduce. intros W H. apply bind_ok in H as (u & Hu & H). apply bind_ok in H as (k & Hk & H).
  apply bind_ok in H as (u' & Hu' & H). injection H as <-. apply tab_wf. intros idx _.
  destruct (kind_bin (rop_bop r) (akind a) (akind a)) as [k'|] eqn:K; [|discriminate]. injection Hk as ->.
  destruct (rop_kind _ _ _ K) as [-> NB].
  destruct (nth ax (ashape a) 0) as [|n]; [destruct (akind a); [congruence|reflexivity|reflexivity]|].
  assert (forall l s, skind s = akind a ->
            skind (fold_left (fun s j => sbin (rop_bop r) (akind a) s (get a (ins_nth ax j idx))) l s) = akind a).
  { induction l as [|j l IH]; simpl; intros s Hs; auto. apply IH. apply sbin_kind; auto.
    apply get_kind_any; auto. }
  apply H. apply get_kind_any; auto.
Qed.
Lemma nd_einsum_wf s l a : nd_einsum s l = Ok a -> arr_wf a.
Proof. unfold nd_einsum. intros H. inv_bind. apply tab_wf. reflexivity. Qed.

Lemma wrap_wf sg v l : yval_wf v -> wrap_vals sg v = Ok l -> Forall arr_wf l.
Proof.
  destruct sg, v; simpl; intros W H; try discriminate; injection H as <-; auto.
Qed.
Lemma unwrap_wf sg l v : Forall arr_wf l -> unwrap_vals sg l = Ok v -> yval_wf v.
Proof.
  destruct sg; simpl; intros W H.
  - destruct l as [|a [|]]; try discriminate. injection H as <-. inversion W; auto.
  - injection H as <-. exact W.
Qed.
Lemma mapM_wf (f : arr -> res arr) l l' :
  (forall a b, arr_wf a -> f a = Ok b -> arr_wf b) -> Forall arr_wf l -> mapM f l = Ok l' -> Forall arr_wf l'.
Proof.
  intros Hf W H. apply (mapM_all _ _ _ _ H). intros x y Hx Hy. rewrite Forall_forall in W.
  apply (Hf x); auto.
Qed.
Lemma tree_loop_wf g ax fuel : 
  (forall p q r, Forall arr_wf p -> Forall arr_wf q -> g p q = Ok r -> Forall arr_wf r) ->
  forall n vals acc r, Forall arr_wf vals -> Forall arr_wf acc ->
  tree_loop g ax fuel n vals acc = Ok r -> Forall arr_wf r.
Proof.
  intros Hg. induction fuel as [|fuel IH]; intros n vals acc r Wv Wa H; [discriminate|]. simpl in H.
  assert (P : forall f l, mapM (pick ax f) vals = Ok l -> Forall arr_wf l).
  { intros f l Hl. apply (mapM_wf _ _ _ (fun a b W E => nd_pick_wf _ _ a b W E) Wv Hl). }
  destruct (1 <? n).
  - apply bind_ok in H as (ac & Hac & H). apply bind_ok in H as (p & Hp & H).
    apply bind_ok in H as (q & Hq & H). apply bind_ok in H as (vs & Hvs & H).
    apply IH in H; auto.
    + apply (Hg p q); eauto.
    + destruct (Nat.odd n); [|injection Hac as <-; auto].
      apply bind_ok in Hac as (l & Hl & Hac). apply (Hg l acc); eauto.
  - destruct (n =? 1); [|injection H as <-; auto].
    apply bind_ok in H as (l & Hl & H). apply (Hg l acc); eauto.
Qed.
Lemma reduce_call_wf run ax acc vals v :
  (forall a b w, yval_wf a -> yval_wf b -> run a b = Ok w -> yval_wf w) ->
  yval_wf acc -> yval_wf vals -> reduce_call run ax acc vals = Ok v -> yval_wf v.
Proof.
  intros Hr Wa Wv H. unfold reduce_call in H. set (sg := match vals with YA _ => true | _ => false end) in *.
  apply bind_ok in H as (vs & Hvs & H). apply bind_ok in H as (ac & Hac & H).
  apply bind_ok in H as (ns & Hns & H). destruct ns as [|n ns]; [discriminate|].
  apply bind_ok in H as (u & _ & H). apply bind_ok in H as (ac1 & H1 & H).
  apply bind_ok in H as (ac2 & H2 & H). apply bind_ok in H as (ac3 & H3 & H).
  apply wrap_wf in Hvs, Hac; auto.
  apply (mapM_wf _ _ _ (fun a b W E => nd_unsqueeze_wf _ a b W E) Hac) in H1.
  apply tree_loop_wf in H2; auto.
  - apply (mapM_wf _ _ _ (fun a b W E => nd_squeeze_wf _ a b W E) H2) in H3.
    apply unwrap_wf in H; auto.
  - intros p q r Wp Wq E. apply bind_ok in E as (x & Hx & E). apply bind_ok in E as (y & Hy & E).
    apply bind_ok in E as (w & Hw & E). apply wrap_wf in E; auto.
    apply (Hr x y); auto; [apply (unwrap_wf sg p)|apply (unwrap_wf sg q)]; auto.
Qed.

Lemma consts_sub e c : yconsts_wf e -> In c (ysubs e) -> yconsts_wf c.
Proof. intros H Hc a Ha. apply H. eapply sub_step; eauto. Qed.

Lemma yeval_wf (XW : ext_wf) (PW : pad_wf) e : forall R v,
  yconsts_wf e -> yenv_wf R -> yeval R e = Ok v -> yval_wf v.
Proof.
  induction e using yarr_ind'; intros R v C W HE; simpl in HE;
    assert (CS : forall c, In c (ysubs _) -> yconsts_wf c) by (intros; eapply consts_sub; eauto);
    simpl in CS.
  - injection HE as <-. apply C. constructor.
  - destruct (R (SV x)) eqn:E; [|discriminate]. injection HE as <-. apply (W _ _ E).
  - apply bind_ok in HE as (w & Hw & HE). apply IHe2 in HE; auto. apply yenv_wf_upd; auto.
    apply IHe1 in Hw; auto.
  - apply bind_ok in HE as (w & Hw & HE). apply bind_ok in HE as (a & Ha & HE).
    apply bind_ok in HE as (b & Hb & HE). injection HE as <-. eapply nd_dim_wf; eauto.
  - apply bind_ok in HE as (w & Hw & HE). apply bind_ok in HE as (a & Ha & HE).
    apply bind_ok in HE as (b & Hb & HE). injection HE as <-. apply nd_range_wf.
  - apply bind_ok in HE as (vs & Hvs & HE). apply bind_ok in HE as (l & Hl & HE).
    apply bind_ok in HE as (b & Hb & HE). injection HE as <-.
    apply (nd_concat_wf ax l); auto. apply (mapM_ya_wf vs); auto.
    apply (mapM_all _ _ _ _ Hvs). intros c y Hc Hy. rewrite Forall_forall in H. eapply H; eauto.
  - apply bind_ok in HE as (w & Hw & HE). apply bind_ok in HE as (a & Ha & HE).
    apply bind_ok in HE as (b & Hb & HE). injection HE as <-. apply IHe in Hw; auto.
    apply (nd_transpose_wf pi a); auto. apply (ya_wf w); auto.
  - apply bind_ok in HE as (w & Hw & HE). apply bind_ok in HE as (a & Ha & HE).
    apply bind_ok in HE as (b & Hb & HE). injection HE as <-. apply IHe in Hw; auto.
    apply (nd_squeeze_wf axes a); auto. apply (ya_wf w); auto.
  - apply bind_ok in HE as (w & Hw & HE). apply bind_ok in HE as (a & Ha & HE).
    apply bind_ok in HE as (b & Hb & HE). injection HE as <-. apply IHe in Hw; auto.
    apply (nd_unsqueeze_wf axes a); auto. apply (ya_wf w); auto.
  - apply bind_ok in HE as (w & Hw & HE). apply bind_ok in HE as (w' & Hw' & HE).
    apply bind_ok in HE as (a & Ha & HE). apply bind_ok in HE as (b & Hb & HE).
    apply bind_ok in HE as (c & Hc & HE). injection HE as <-. apply IHe1 in Hw; auto.
    apply (nd_gather_wf ax a b); auto. apply (ya_wf w); auto.
  - apply bind_ok in HE as (w & Hw & HE). apply bind_ok in HE as (ws & _ & HE).
    apply bind_ok in HE as (a & Ha & HE). apply bind_ok in HE as (c & Hc & HE). injection HE as <-.
    apply IHe in Hw; auto. eapply nd_take_wf; eauto. apply (ya_wf w); auto.
  - apply bind_ok in HE as (w & Hw & HE). apply bind_ok in HE as (ls & _ & HE).
    apply bind_ok in HE as (rs & _ & HE). apply bind_ok in HE as (a & Ha & HE).
    apply bind_ok in HE as (c & Hc & HE). injection HE as <-.
    apply IHe in Hw; auto. eapply nd_slice_wf; eauto. apply (ya_wf w); auto.
  - apply bind_ok in HE as (w & Hw & HE). apply bind_ok in HE as (ls & _ & HE).
    apply bind_ok in HE as (rs & _ & HE). apply bind_ok in HE as (a & Ha & HE).
    apply bind_ok in HE as (c & Hc & HE). injection HE as <-.
    apply IHe in Hw; auto. eapply PW; eauto. apply (ya_wf w); auto.
  - apply bind_ok in HE as (w & Hw & HE). apply bind_ok in HE as (w' & Hw' & HE).
    apply bind_ok in HE as (a & Ha & HE). apply bind_ok in HE as (b & Hb & HE).
    apply bind_ok in HE as (z & Hz & HE). apply bind_ok in HE as (c & Hc & HE). injection HE as <-.
    apply IHe2 in Hw; auto. eapply nd_repeat_wf; eauto. apply (ya_wf w); auto.
  - apply bind_ok in HE as (w & Hw & HE). apply bind_ok in HE as (a & Ha & HE).
    apply bind_ok in HE as (b & Hb & HE). injection HE as <-. apply IHe in Hw; auto.
    eapply nd_reduce_wf; eauto. apply (ya_wf w); auto.
  - apply bind_ok in HE as (w & Hw & HE). apply bind_ok in HE as (a & Ha & HE).
    apply bind_ok in HE as (b & Hb & HE). injection HE as <-. apply IHe in Hw; auto.
    eapply nd_cast_wf; eauto. apply (ya_wf w); auto.
  - apply bind_ok in HE as (w & Hw & HE). apply bind_ok in HE as (a & Ha & HE).
    apply bind_ok in HE as (b & Hb & HE). injection HE as <-. apply IHe in Hw; auto.
    eapply nd_un_wf; eauto. apply (ya_wf w); auto.
  - apply bind_ok in HE as (w & Hw & HE). apply bind_ok in HE as (w' & Hw' & HE).
    apply bind_ok in HE as (a & Ha & HE). apply bind_ok in HE as (b & Hb & HE).
    apply bind_ok in HE as (c & Hc & HE). injection HE as <-. apply IHe1 in Hw; auto.
    apply IHe2 in Hw'; auto. apply (nd_bin_wf o a b); auto; [apply (ya_wf w)|apply (ya_wf w')]; auto.
  - apply bind_ok in HE as (w1 & Hw1 & HE). apply bind_ok in HE as (w2 & Hw2 & HE).
    apply bind_ok in HE as (w3 & Hw3 & HE). apply bind_ok in HE as (a & Ha & HE).
    apply bind_ok in HE as (b & Hb & HE). apply bind_ok in HE as (c & Hc & HE).
    apply bind_ok in HE as (d & Hd & HE). injection HE as <-.
    apply IHe1 in Hw1; auto. apply IHe2 in Hw2; auto. apply IHe3 in Hw3; auto 6.
    apply (nd_where_wf a b c); auto; [apply (ya_wf w1)|apply (ya_wf w2)|apply (ya_wf w3)]; auto.
  - apply bind_ok in HE as (v0 & Hv0 & HE). apply bind_ok in HE as (w & Hw & HE).
    apply bind_ok in HE as (b & Hb & HE). apply bind_ok in HE as (z & Hz & HE).
    apply IHe2 in Hv0; auto. revert HE. apply (iter_res_inv yval_wf); auto.
    intros j c' d Wc. apply IHe3; auto 6. apply yenv_wf_upd; [apply yenv_wf_upd; auto|]. apply ascalar_wf.
  - apply bind_ok in HE as (v0 & Hv0 & HE). apply bind_ok in HE as (vs & Hvs & HE).
    apply IHe1 in Hv0; auto. apply IHe3 in Hvs; auto 6.
    apply reduce_call_wf in HE; auto. intros a b w Wa Wb. apply IHe2; auto.
    apply yenv_wf_upd; auto. apply yenv_wf_upd; auto.
  - apply bind_ok in HE as (vs & Hvs & HE). apply bind_ok in HE as (l & Hl & HE). injection HE as <-.
    apply (mapM_ya_wf vs); auto.
    apply (mapM_all _ _ _ _ Hvs). intros c y Hc Hy. rewrite Forall_forall in H. eapply H; eauto.
  - apply bind_ok in HE as (w & Hw & HE). apply IHe in Hw; auto. destruct w as [|l]; [discriminate|].
    apply bind_ok in HE as (a & Ha & HE). injection HE as <-.
    destruct (nth_error l at_) eqn:E; [|discriminate]. injection Ha as <-.
    apply nth_error_In in E. simpl in Hw. rewrite Forall_forall in Hw. apply Hw; auto.
  - apply bind_ok in HE as (vs & Hvs & HE). apply bind_ok in HE as (l & Hl & HE).
    apply bind_ok in HE as (b & Hb & HE). injection HE as <-. eapply nd_einsum_wf; eauto.
  - apply bind_ok in HE as (vs & Hvs & HE). apply bind_ok in HE as (l & Hl & HE).
    apply bind_ok in HE as (b & Hb & HE). injection HE as <-. eapply XW; eauto.
Qed.

End YWf.
