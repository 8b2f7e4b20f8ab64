(** [where] on structures that hold arrays (ein/frontend/std.py:12-22): a
    comprehension over each axis, whose size is inferred from both arrays. *)
From Verif Require Import Base Scalar Tensor Types Sym Phi Den Term PhiTerm DenFree SpecPhi Lining DenWf Moments CodegenLocal Sizes SizeSound Layout
  Comprehension ComprehensionSem Slice.

Section WhereVec.
Context {FO : FloatOps} {EX : Externs}.

(** * Values *)

(** An array is the stack of its elements. *)
Lemma vstack_vget v : forall d v0 ws, val_wf v -> vdim v 0 = Ok d -> vget v 0 = Ok v0 ->
  mapM (fun k => vget v (Z.of_nat k)) (seq 0 d) = Ok ws -> vstack v0 ws = Ok v.
Proof.
  induction v as [a|v1 IH1 v2 IH2]; intros d v0 ws W D H0 HS.
  - cbn [val_wf] in W. cbn [vdim] in D. cbn [vget] in H0. apply bind_ok in H0 as (b & H0 & Q). injection Q as <-.
    unfold aget in H0. destruct (ashape a) as [|n sh] eqn:S; [discriminate|]. injection H0 as <-. simpl in D. injection D as <-.
    assert (ws = map (fun k => VArr (asub a k)) (seq 0 n)).
    { apply mapM_Forall2 in HS. assert (L : forall k, In k (seq 0 n) -> k < n) by (intros k Hk; apply in_seq in Hk; lia). revert L.
      induction HS as [|k w l ws H _ IH]; intros L; auto. cbn [map]. f_equal; [|apply IH; intros; apply L; right; auto].
      cbn [vget] in H. unfold aget in H. rewrite S in H. rewrite clip_id in H by (apply L; left; auto). cbn [bind] in H. congruence. }
    subst ws. cbn [vstack]. rewrite mapM_map. cbn [as_arr]. rewrite (mapM_Ok (fun k => asub a k)). cbn [bind].
    assert (G : forallb (arr_like (asub a (clip 0 n))) (map (fun k => asub a k) (seq 0 n)) = true).
    { apply forallb_forall. intros b Hb. apply in_map_iff in Hb as (k & <- & _). unfold arr_like, asub. cbn [akind ashape tab].
      rewrite (proj2 (kind_eqb_eq _ _) eq_refl). rewrite (proj2 (list_nat_eqb_eq _ _) eq_refl). reflexivity. }
    rewrite G. cbn [guard bind]. f_equal. f_equal. unfold asub at 1 2. cbn [akind ashape tab]. rewrite S. cbn [tl].
    transitivity (tab (akind a) (ashape a) (get a)); [|apply tab_get; auto]. unfold astack. rewrite map_length, seq_length, S. apply tab_ext.
    intros [|k idx] Hi; [inversion Hi|]. apply inb_cons in Hi as [Hk Hi].
    rewrite (nth_map_lt _ _ _ 0) by (rewrite seq_length; auto). rewrite seq_nth by auto. simpl. unfold asub. rewrite get_tab; auto. rewrite S. auto.
  - destruct W as [W1 W2]. cbn [vdim] in D. apply bind_ok in D as (d1 & D1 & D). apply bind_ok in D as (d2 & D2 & D).
    apply bind_ok in D as (u & G & D). injection D as <-. apply guard_ok, Nat.eqb_eq in G. subst d2.
    cbn [vget] in H0. apply bind_ok in H0 as (x1 & X1 & H0). apply bind_ok in H0 as (x2 & X2 & H0). injection H0 as <-.
    assert (exists ps, mapM as_pair ws = Ok ps /\ mapM (fun k => vget v1 (Z.of_nat k)) (seq 0 d1) = Ok (map fst ps) /\
      mapM (fun k => vget v2 (Z.of_nat k)) (seq 0 d1) = Ok (map snd ps)) as (ps & P & P1 & P2).
    { clear - HS. revert ws HS. induction (seq 0 d1) as [|k l IH]; intros ws H; cbn [mapM] in H.
      - injection H as <-. exists []. auto.
      - apply bind_ok in H as (w & H1 & H). apply bind_ok in H as (ws' & H2 & H). injection H as <-.
        destruct (IH _ H2) as (ps & P & P1 & P2). cbn [vget] in H1. apply bind_ok in H1 as (w1 & W1 & H1). apply bind_ok in H1 as (w2 & W2 & H1). injection H1 as <-.
        exists ((w1, w2) :: ps). cbn [mapM as_pair bind map fst snd]. rewrite P, W1, W2. cbn [bind]. rewrite P1, P2. auto. }
    cbn [vstack]. rewrite P. cbn [bind]. rewrite (IH1 _ _ _ W1 D1 X1 P1), (IH2 _ _ _ W2 D2 X2 P2). reflexivity.
Qed.

(** Same structure and shapes. *)
Fixpoint sshape (v w : val) : Prop :=
  match v, w with
  | VArr a, VArr b => ashape a = ashape b
  | VPair v1 v2, VPair w1 w2 => sshape v1 w1 /\ sshape v2 w2
  | _, _ => False
  end.

Lemma sshape_refl v : sshape v v.
Proof. induction v; simpl; auto. Qed.
Lemma sshape_vget v : forall w y z v' w', sshape v w -> vget v y = Ok v' -> vget w z = Ok w' -> sshape v' w'.
Proof.
  induction v as [a|v1 IH1 v2 IH2]; intros [b|w1 w2] y z v' w' S Hv Hw; cbn [sshape vget] in *; try tauto.
  - unfold aget in *. rewrite S in Hv. destruct (ashape b) as [|n sh] eqn:Q; [discriminate|]. cbn [bind] in *.
    injection Hv as <-. injection Hw as <-. simpl. rewrite S, Q. reflexivity.
  - destruct S as [S1 S2]. inv_bind. split; eauto.
Qed.
Lemma sshape_vdim v : forall w ax, sshape v w -> vdim v ax = vdim w ax.
Proof.
  induction v as [a|v1 IH1 v2 IH2]; intros [b|w1 w2] ax S; cbn [sshape vdim] in *; try tauto; [rewrite S; reflexivity|].
  destruct S as [S1 S2]. rewrite (IH1 _ _ S1), (IH2 _ _ S2). reflexivity.
Qed.
Lemma vdim_of_vget u : forall z v axis d, vget u z = Ok v -> vdim u (S axis) = Ok d -> vdim v axis = Ok d.
Proof.
  induction u as [a|u1 IH1 u2 IH2]; intros z v axis d H D; cbn [vget] in H.
  - apply bind_ok in H as (b & H & Q). injection Q as <-. unfold aget in H. destruct (ashape a) as [|n sh] eqn:S; [discriminate|]. injection H as <-.
    cbn [vdim] in *. unfold asub. cbn [ashape tab]. rewrite S in *. exact D.
  - apply bind_ok in H as (x & X & H). apply bind_ok in H as (y & Y & H). injection H as <-. cbn [vdim] in *.
    apply bind_ok in D as (d1 & D1 & D). apply bind_ok in D as (d2 & D2 & D).
    rewrite (IH1 _ _ _ _ X D1), (IH2 _ _ _ _ Y D2). exact D.
Qed.

(** A structure held in pairs determines the pairs. *)
Lemma unpack_inj (l : layout) : forall v w s, unpack v l = Ok s -> unpack w l = Ok s -> v = w.
Proof.
  induction l as [|sl IH|ls IH|ls t IH] using layout_ind'; intros v w s Hv Hw; try (simpl in *; congruence).
  - cbn [unpack] in *. fold unpack_pos in *. apply bind_ok in Hv as (ss & Hv & Q). injection Q as <-. apply bind_ok in Hw as (ss' & Hw & Q). injection Q as ->.
    revert v w ss Hv Hw. induction IH as [|l ls Hl _ IHls]; intros v w ss Hv Hw; [discriminate|].
    destruct ls as [|l2 ls].
    + cbn [unpack_pos] in *. apply bind_ok in Hv as (x & Hv & Q). injection Q as <-. apply bind_ok in Hw as (y & Hw & Q). injection Q as ->. eauto.
    + cbn [unpack_pos] in Hv, Hw. fold unpack_pos in Hv, Hw.
      apply bind_ok in Hv as (p & P & Hv). apply bind_ok in Hv as (x & X & Hv). apply bind_ok in Hv as (xs & XS & Q). injection Q as <-.
      apply bind_ok in Hw as (p' & P' & Hw). apply bind_ok in Hw as (x' & X' & Hw). apply bind_ok in Hw as (xs' & XS' & Q). injection Q as -> ->.
      apply as_pair_inv in P. apply as_pair_inv in P'. subst. f_equal; eauto.
  - cbn [unpack] in *. fold unpack_lab in *. apply bind_ok in Hv as (ss & Hv & Q). apply bind_ok in Hw as (ss' & Hw & Q'). subst.
    assert (ss' = ss) by (destruct t; congruence). subst ss'. clear Q Q'.
    revert v w ss Hv Hw. induction IH as [|[m l] ls Hl _ IHls]; intros v w ss Hv Hw; [discriminate|]. cbn [snd] in Hl.
    destruct ls as [|[m2 l2] ls].
    + cbn [unpack_lab] in *. apply bind_ok in Hv as (x & Hv & Q). injection Q as <-. apply bind_ok in Hw as (y & Hw & Q). injection Q as ->. eauto.
    + cbn [unpack_lab] in Hv, Hw. fold unpack_lab in Hv, Hw.
      apply bind_ok in Hv as (p & P & Hv). apply bind_ok in Hv as (x & X & Hv). apply bind_ok in Hv as (xs & XS & Q). injection Q as <-.
      apply bind_ok in Hw as (p' & P' & Hw). apply bind_ok in Hw as (x' & X' & Hw). apply bind_ok in Hw as (xs' & XS' & Q). injection Q as -> ->.
      apply as_pair_inv in P. apply as_pair_inv in P'. subst. f_equal; eauto.
Qed.

(** * Shapes that do not depend on an index *)

Inductive steady : phi -> Prop :=
| steady_base e : (forall i, ~ free_in (SX i) e) -> steady e
| steady_get e x : steady e -> steady (PGet e x)
| steady_first e : steady e -> steady (PFirst e)
| steady_second e : steady e -> steady (PSecond e).

Definition off_index (E E' : env) : Prop := forall s, is_index s = false -> E s = E' s.

Lemma index_free_ext e E E' : (forall i, ~ free_in (SX i) e) -> off_index E E' -> den E e = den E' e.
Proof.
  intros F H. apply den_ext. intros [x|i] Hs; [apply H; reflexivity|]. exfalso. apply (F i). apply free_in_isfree. auto.
Qed.

Lemma steady_shape e : steady e -> forall E E' v v', off_index E E' -> den E e = Ok v -> den E' e = Ok v' -> sshape v v'.
Proof.
  induction 1 as [e F|e x H IH|e H IH|e H IH]; intros E E' v v' A D D'.
  - rewrite (index_free_ext e E E' F A) in D. rewrite D in D'. injection D' as <-. apply sshape_refl.
  - cbn [den] in D, D'. apply bind_ok in D as (u & U & D). apply bind_ok in D as (w & _ & D). apply bind_ok in D as (z & _ & D).
    apply bind_ok in D' as (u' & U' & D'). apply bind_ok in D' as (w' & _ & D'). apply bind_ok in D' as (z' & _ & D').
    eapply sshape_vget; eauto.
  - cbn [den] in D, D'. apply bind_ok in D as (u & U & D). apply bind_ok in D as (p & P & D). injection D as <-.
    apply bind_ok in D' as (u' & U' & D'). apply bind_ok in D' as (p' & P' & D'). injection D' as <-.
    apply as_pair_inv in P. apply as_pair_inv in P'. subst. apply (IH E E' _ _ A U U').
  - cbn [den] in D, D'. apply bind_ok in D as (u & U & D). apply bind_ok in D as (p & P & D). injection D as <-.
    apply bind_ok in D' as (u' & U' & D'). apply bind_ok in D' as (p' & P' & D'). injection D' as <-.
    apply as_pair_inv in P. apply as_pair_inv in P'. subst. apply (IH E E' _ _ A U U').
Qed.

Lemma dim_of_ok e : forall E ax v w, den E e = Ok v -> den E (dim_of e ax) = Ok w ->
  exists d z, vdim v ax = Ok d /\ val_int w = Ok z /\ Z.to_nat z = d.
Proof.
  assert (G : forall E e ax v w, den E e = Ok v -> den E (PDim e ax) = Ok w -> exists d z, vdim v ax = Ok d /\ val_int w = Ok z /\ Z.to_nat z = d).
  { intros E e0 ax v w H D. cbn [den] in D. rewrite H in D. cbn [bind] in D. apply bind_ok in D as (d & D1 & D). injection D as <-.
    exists d, (Z.of_nat d). split; auto. split; [reflexivity|lia]. }
  induction e using phi_ind'; intros E axis v w Hv Hw; try (eapply G; eauto; fail).
  - cbn [dim_of] in Hw. cbn [den] in Hv. apply bind_ok in Hv as (u & U & Hv). apply bind_ok in Hv as (w1 & _ & Hv). apply bind_ok in Hv as (z1 & _ & Hv).
    destruct (IHe1 _ _ _ _ U Hw) as (d & z & D & V & Z). exists d, z. split; auto. eapply vdim_of_vget; eauto.
  - cbn [dim_of] in Hw. destruct axis as [|axis]; [|eapply G; eauto].
    cbn [den] in Hv. rewrite Hw in Hv. cbn [bind] in Hv. apply bind_ok in Hv as (z & Z & Hv). apply bind_ok in Hv as (v0 & _ & Hv).
    apply bind_ok in Hv as (vs & VS & Hv). exists (length vs), z. split; [eapply vdim_vstack; eauto|]. split; auto.
    apply mapM_length in VS. rewrite seq_length in VS. auto.
Qed.

Lemma steady_dim e : steady e -> forall E E' ax v w, off_index E E' -> den E e = Ok v -> den E' (dim_of e ax) = Ok w ->
  exists d z, vdim v ax = Ok d /\ val_int w = Ok z /\ Z.to_nat z = d.
Proof.
  assert (G : forall e, steady e -> forall E E' ax v w, off_index E E' -> den E e = Ok v -> den E' (PDim e ax) = Ok w ->
    exists d z, vdim v ax = Ok d /\ val_int w = Ok z /\ Z.to_nat z = d).
  { intros e0 S E E' ax v w A D H. cbn [den] in H. apply bind_ok in H as (v' & D' & H). apply bind_ok in H as (d & V & H). injection H as <-.
    exists d, (Z.of_nat d). rewrite (sshape_vdim v v' ax); [split; auto; split; [reflexivity|lia]|]. eapply steady_shape; eauto. }
  induction 1 as [e F|e x H IH|e H IH|e H IH]; intros E E' ax v w A D D'.
  - eapply dim_of_ok; [exact D|]. rewrite <- D'. apply index_free_ext; auto. intros i Hi. apply (F i). eapply dim_of_free; eauto.
  - cbn [dim_of] in D'. cbn [den] in D. apply bind_ok in D as (u & U & D). apply bind_ok in D as (w1 & _ & D). apply bind_ok in D as (z1 & _ & D).
    destruct (IH _ _ _ _ _ A U D') as (d & z & V & W & Z). exists d, z. split; auto. eapply vdim_of_vget; eauto.
  - apply (G (PFirst e)) with (E := E) (E' := E'); auto. apply steady_first. auto.
  - apply (G (PSecond e)) with (E := E) (E' := E'); auto. apply steady_second. auto.
Qed.

(** * Indices set to zero *)

Lemma mentions_syms s (e : phi) : mentions s e -> ~ In s (bsyms e) -> isfree s e.
Proof.
  intros [t H] N. destruct (free_sub_of _ _ s H) as [Q|Q]; auto; [|tauto]. apply free_in_isfree. reflexivity.
Qed.

Lemma zeroed_mentions s (sb : list (sym * phi)) : (forall r u, In (r, u) sb -> u = p_int 0) ->
  forall fuel e, psize e <= fuel -> ~ In s (bsyms e) -> In s (map fst sb) \/ ~ mentions s e -> ~ mentions s (substitute_go fuel sb e).
Proof.
  intros HZ. induction fuel as [|fuel IH]; intros e L N C.
  - exfalso. pose proof (@tsize_pos phi PhiOps PhiLaws e) as Q. change (0 < psize e) in Q. lia.
  - cbn [substitute_go]. destruct (existsb _ (tfree e)) eqn:X.
    + destruct (symof e) as [r|] eqn:SY.
      * destruct (sassoc r sb) as [u|] eqn:Q.
        -- apply sassoc_In, HZ in Q. subst u. intros [t H]. inversion H as [|? c ? Hc]; subst. destruct Hc.
        -- destruct (symof_subs _ _ SY) as (S1 & _). rewrite S1. cbn [map]. rewrite <- S1, rebuild_subs.
           destruct C as [C|C]; auto. intros M. apply mentions_syms in M; auto.
           assert (r = s) as ->. { inversion M as [? H0|? k c sc H0]; subst; [congruence|]. rewrite S1 in H0. destruct k; discriminate. }
           apply in_map_iff in C as ([r u] & <- & C). unfold sassoc in Q. destruct (find _ sb) eqn:F; [discriminate|].
           pose proof (find_none _ _ F _ C) as K. simpl in K. rewrite sym_eqb_refl in K. discriminate.
      * intros [t H]. assert (LN : length (map (substitute_go fuel sb) (subs e)) = length (subs e)) by apply map_length.
        remember (rebuild e (map (substitute_go fuel sb) (subs e))) as y eqn:Y. remember (PStore s t) as x eqn:Q.
        destruct H as [x|x c y Hc Hs]; subst.
        -- assert (Q' : symof (rebuild e (map (substitute_go fuel sb) (subs e))) = Some s) by (rewrite Q; reflexivity).
           rewrite symof_rebuild in Q' by auto. congruence.
        -- change (In c (subs (rebuild e (map (substitute_go fuel sb) (subs e))))) in Hc. rewrite subs_rebuild in Hc by auto.
           apply in_map_iff in Hc as (c0 & <- & Hc). assert (SZ : psize c0 < psize e) by (exact (@tsize_sub phi PhiOps PhiLaws e c0 Hc)).
           assert (S1 : sub_of c0 e) by (eapply sub_step; [exact Hc|constructor]).
           apply (IH c0); [lia| | |exists t; auto].
           ++ intros K. apply N. eapply bsyms_sub; eauto.
           ++ destruct C as [C|C]; auto. right. intros [t' M]. apply C. exists t'. eapply sub_of_trans; eauto.
    + destruct C as [C|C]; auto. intros M. apply mentions_syms in M; auto. apply free_in_isfree in M. apply free_fsyms in M; auto.
      assert (K : existsb (fun r => smem r (map fst sb)) (tfree e) = true); [|congruence].
      apply existsb_exists. exists s. split; auto. apply smem_In. auto.
Qed.

Lemma at_zero_mentions i (e : phi) : ~ In (SX i) (bsyms e) -> ~ mentions (SX i) (with_indices_at_zero e).
Proof.
  intros N. unfold with_indices_at_zero. apply zeroed_mentions; auto.
  - intros r u H. apply in_map_iff in H as (s & Q & _). congruence.
  - rewrite map_map. cbn [fst]. rewrite map_id. destruct (in_dec sym_eq_dec (SX i) (free_indices e)) as [H|H]; auto. right. intros M.
    apply H. apply mentions_syms in M; auto. apply free_in_isfree in M. apply free_fsyms in M; auto. apply filter_In. auto.
Qed.

(** * The expressions [where] builds *)

(** No index from [n] on occurs. *)
Definition fresh_from (n : nat) (e : phi) : Prop := forall m, n <= m -> ~ mentions (SX m) e /\ ~ In (SX m) (bsyms e).
Definition fine (n : nat) (e : phi) : Prop := consts_wf e /\ steady e /\ unshadowed e /\ fresh_from n e.

(** Accesses with [SX n0] are to [T] and [F], below binders of later indices. *)
Definition seen (n0 : nat) (T F : phi) (e : phi) : Prop := forall t C, accessed (SX n0) t C e ->
  (t = T \/ t = F) /\ forall s, In s C -> exists m, n0 < m /\ s = SX m.
Definition acc (n0 : nat) (T : phi) (e : phi) : Prop := exists C, accessed (SX n0) T C e.

Lemma acc_child n0 T e c : In c (subterms e) -> acc n0 T c -> acc n0 T e.
Proof. intros H [C A]. exists (captured e ++ C). econstructor; eauto. Qed.
Lemma seen_absent n0 T F e : ~ mentions (SX n0) e -> seen n0 T F e.
Proof. intros H t C A. exfalso. apply H. eapply accessed_mentions; eauto. Qed.
Lemma seen_node n0 T F e : captured e = [] -> (forall t ty, e <> PGet t (PStore (SX n0) ty)) -> Forall (seen n0 T F) (subterms e) -> seen n0 T F e.
Proof.
  intros HC HG HF t C A. inversion A as [ty Q1 Q2|C' e' c Hc A']; subst; [exfalso; eapply HG; eauto|].
  rewrite Forall_forall in HF. rewrite HC. exact (HF c Hc t C' A').
Qed.

Lemma unshadowed_one (t : phi) (k : phi) : captured k = [] -> subterms k = [t] -> (forall s, free_in s k <-> free_in s t) -> unshadowed t -> unshadowed k.
Proof.
  intros HC HS HF U d n s Hd Hn Hs Hf.
  assert (G : forall u, sub_of u k -> u = k \/ sub_of u t).
  { intros u Hu. inversion Hu as [|? c ? Hc Hu']; subst; auto. change (In c (subterms k)) in Hc. rewrite HS in Hc. destruct Hc as [<-|[]]. auto. }
  destruct (G d Hd) as [->|Hd'].
  - destruct (G n Hn) as [->|Hn']; [change (In s (captured k)) in Hs; rewrite HC in Hs; destruct Hs|].
    apply (U t n s); auto; [constructor|]. apply free_in_isfree. apply HF. apply free_in_isfree. exact Hf.
  - apply (U d n s); auto.
Qed.

Lemma fine_first n e : fine n e -> fine n (PFirst e).
Proof.
  intros (C & S & U & F). split; [exact C|]. split; [apply steady_first; auto|].
  split; [apply (unshadowed_one e); auto; intros; reflexivity|]. intros m Hm. destruct (F m Hm) as [F1 F2]. split; [|exact F2].
  intros [t H]. inversion H as [|? c ? Hc H']; subst. destruct Hc as [<-|[]]. apply F1. exists t. auto.
Qed.
Lemma fine_second n e : fine n e -> fine n (PSecond e).
Proof.
  intros (C & S & U & F). split; [exact C|]. split; [apply steady_second; auto|].
  split; [apply (unshadowed_one e); auto; intros; reflexivity|]. intros m Hm. destruct (F m Hm) as [F1 F2]. split; [|exact F2].
  intros [t H]. inversion H as [|? c ? Hc H']; subst. destruct Hc as [<-|[]]. apply F1. exists t. auto.
Qed.
Lemma fine_project n e i k : fine n e -> fine n (project_tuple e i k).
Proof.
  intros H. unfold project_tuple. assert (G : fine n (Nat.iter i PSecond e)) by (induction i; simpl; auto using fine_second).
  destruct (i + 1 <? k); auto using fine_first.
Qed.
Lemma fine_get n e : fine n e -> fine (S n) (PGet e (p_at n)).
Proof.
  intros (C & S & U & F). split; [simpl; auto|]. split; [apply steady_get; auto|]. split.
  - assert (G : forall u, sub_of u (PGet e (p_at n)) -> u = PGet e (p_at n) \/ u = p_at n \/ sub_of u e).
    { intros u Hu. inversion Hu as [|? c ? Hc Hu']; subst; auto. destruct Hc as [<-|[<-|[]]]; auto. inversion Hu' as [|? c ? Hc Hu'']; subst; auto. destruct Hc. }
    intros d b s Hd Hb Hs Hf. destruct (G d Hd) as [->|[->|Hd']].
    + destruct (G b Hb) as [->|[->|Hb']]; [destruct Hs|destruct Hs|]. apply free_in_isfree in Hf. destruct Hf as [Hf|Hf].
      * apply (U e b s); auto; [constructor|]. apply free_in_isfree. auto.
      * simpl in Hf. subst s. apply (proj2 (F n (le_n n))). apply (bsyms_sub b e Hb'). rewrite bsyms_list. apply in_or_app. left. exact Hs.
    + inversion Hb as [|? c ? Hc Hb']; subst; [destruct Hs|destruct Hc].
    + apply (U d b s); auto.
  - intros m Hm. destruct (F m ltac:(lia)) as [F1 F2]. split.
    + intros [t H]. inversion H as [|? c ? Hc H']; subst. destruct Hc as [<-|[<-|[]]]; [apply F1; exists t; auto|].
      inversion H' as [|? c ? Hc H'']; subst; [lia|destruct Hc].
    + simpl. rewrite app_nil_r. auto.
Qed.

(** The size of an axis. *)
Lemma seen_size body n T F X sz E vz z V : infer_size body [SX n] (SX n) = Ok sz -> seen n T F body -> acc n X body -> fine n X ->
  den E sz = Ok vz -> val_int vz = Ok z -> den E X = Ok V -> vdim V 0 = Ok (Z.to_nat z).
Proof.
  intros Hi HS [C0 HC] (_ & ST & U & FR) De Ve DX.
  destruct (accessed_in _ X C0 body HC (psize body) [SX n] (le_n _)) as (C1 & I1 & _).
  destruct (direct_of_complete _ _ _ _ I1) as [C2 I2].
  assert (Cand : In (with_indices_at_zero (dim_of X 0)) (candidates (direct_of (SX n) (accesses (psize body) [SX n] body)))).
  { unfold candidates. apply in_flat_map. exists (X, C2). split; auto. cbn [fst snd].
    destruct (existsb _ _) eqn:Q; [|simpl; auto]. exfalso.
    apply existsb_exists in Q as (r & Hr & Q). apply smem_In in Q.
    apply direct_of_sound, accesses_accessed in I2 as (C3 & A3 & E3). apply E3 in Q.
    assert (exists m, n <= m /\ r = SX m) as (m & Hm & ->).
    { destruct Q as [<-|Q]; [exists n; auto|]. destruct (HS _ _ A3) as [_ K]. destruct (K r Q) as (m & Hm & ->). exists m. split; [lia|auto]. }
    apply (proj1 (FR m Hm)).
    pose proof (tfree_isfree (dim_of X 0) _ Hr) as Hf. apply isfree_mentions in Hf as [ty Hf]. exists ty.
    destruct (dim_of_sub X 0) as (u & Hu & [K|[ax K]]); rewrite K in Hf.
    - eapply sub_of_trans; eauto.
    - inversion Hf as [|? ? ? Hin Hs]; subst. destruct Hin as [<-|[]]. eapply sub_of_trans; eauto. }
  destruct (infer_size_value _ _ _ _ _ _ _ Hi De Ve _ Cand) as (w' & Dw & Vw).
  apply with_indices_at_zero_den in Dw; [|apply unshadowed_dim_of; auto].
  destruct (steady_dim X ST E (zeroed E) 0 V w') as (d & z' & D1 & D2 & D3); auto.
  - intros s Hs. unfold zeroed. rewrite Hs. reflexivity.
  - rewrite Vw in D2. injection D2 as <-. rewrite D1. congruence.
Qed.

Lemma size_mentions body n T F sz i : infer_size body [SX n] (SX n) = Ok sz -> seen n T F body ->
  ~ In (SX i) (bsyms T) -> ~ In (SX i) (bsyms F) -> ~ mentions (SX i) sz.
Proof.
  intros Hi HS NT NF.
  assert (G : forall x, In x (candidates (direct_of (SX n) (accesses (psize body) [SX n] body))) -> ~ mentions (SX i) x).
  { intros x Hx. unfold candidates in Hx. apply in_flat_map in Hx as ([t C] & I2 & Hx). cbn [fst snd] in Hx.
    destruct (existsb _ _); [destruct Hx|]. destruct Hx as [<-|[]].
    apply direct_of_sound, accesses_accessed in I2 as (C3 & A3 & E3). destruct (HS _ _ A3) as [Q _].
    apply at_zero_mentions. intros K. assert (K' : In (SX i) (bsyms t)); [|destruct Q; subst; auto].
    destruct (dim_of_sub t 0) as (u & Hu & [P|[ax P]]); rewrite P in K; eapply bsyms_sub; eauto. }
  unfold infer_size in Hi. destruct (candidates _) as [|c0 cs] eqn:Q; [discriminate|].
  destruct (1 <? _); injection Hi as <-; [|apply G; left; auto].
  intros [ty H]. inversion H as [|? y ? Hy H']; subst. apply (G y); [|exists ty; auto].
  destruct Hy as [<-|Hy]; [left; auto|]. apply dedupe_in. exact Hy.
Qed.

Ltac fa := repeat apply Forall_cons; try apply Forall_nil; auto.

Section Where.
Variable dict_attr : nat -> bool.

(** Reading a structure from the parts of an expression. *)
Fixpoint layout_deep (l : layout) : Prop :=
  match l with
  | LAtom => True
  | LVec s => layout_deep s
  | LPos ls => ls <> [] /\ fold_right and True (map layout_deep ls)
  | LLab ls t => ls <> [] /\ NoDup (map fst ls) /\ (t = None -> Forall (fun n => dict_attr n = false) (map fst ls)) /\
                 fold_right and True (map (fun p => layout_deep (snd p)) ls)
  end.
Lemma layout_deep_ok l : layout_deep l -> layout_ok dict_attr l.
Proof.
  induction l as [|sl IH|ls IH|ls t IH] using layout_ind'; simpl; auto; rewrite !ands_Forall.
  - intros [N H]. split; auto. rewrite Forall_forall in *. auto.
  - intros (N & D & A & H). repeat split; auto. rewrite Forall_forall in *. auto.
Qed.

Lemma oden_of_array E (l : layout) : layout_deep l -> forall e s, oden E (to_array e l) = Ok s -> exists v, den E e = Ok v /\ unpack v l = Ok s.
Proof.
  induction l as [|sl IH|ls IH|ls t IH] using layout_ind'; intros LD e s H.
  - simpl in H. inv_bind. simpl. eauto.
  - simpl in H. inv_bind. simpl. eauto.
  - cbn [layout_deep] in LD. rewrite ands_Forall in LD. destruct LD as [NE LD]. cbn [to_array oden] in H. fold (ta_pos e (length ls)) in H.
    apply bind_ok in H as (ss & H & Q). injection Q as <-. cbn [unpack]. fold unpack_pos.
    enough (G : forall k n, n = k + length ls /\ True -> forall ss, mapM (oden E) (ta_pos e n k ls) = Ok ss ->
      exists w, den E (Nat.iter k PSecond e) = Ok w /\ unpack_pos ls w = Ok ss).
    { destruct (G 0 (length ls) (conj eq_refl I) ss H) as (w & D & U). simpl in D. exists w. rewrite U. auto. }
    clear H ss. revert NE. induction IH as [|l ls Hl _ IHls]; intros NE k n Hn ss H; [congruence|]. inversion LD as [|? ? LD1 LD2]; subst.
    cbn [ta_pos mapM] in H. apply bind_ok in H as (s & H3 & H). apply bind_ok in H as (ss' & H4 & H). injection H as <-.
    destruct (Hl LD1 _ _ H3) as (w & D & U). destruct ls as [|l2 ls].
    + assert (Hlt : (k + 1 <? n) = false) by (apply Nat.ltb_ge; simpl in Hn; lia).
      unfold project_tuple in D. rewrite Hlt in D. cbn [ta_pos mapM] in H4. injection H4 as <-. exists w. split; auto. cbn [unpack_pos]. rewrite U. reflexivity.
    + assert (Hlt : (k + 1 <? n) = true) by (apply Nat.ltb_lt; simpl in Hn; lia).
      unfold project_tuple in D. rewrite Hlt in D. fold (ta_pos e n) in H4.
      destruct (IHls LD2 ltac:(discriminate) (S k) n ltac:(simpl in *; lia) _ H4) as (w' & D' & U').
      simpl Nat.iter in D'. cbn [den] in D, D'. apply bind_ok in D as (x & X & D). apply bind_ok in D as (p & P & D). injection D as <-.
      rewrite X in D'. cbn [bind] in D'. rewrite P in D'. cbn [bind] in D'. injection D' as <-. exists x. split; auto.
      change (unpack_pos (l :: l2 :: ls) x) with (let* p := as_pair x in let* s := unpack (fst p) l in let* ss := unpack_pos (l2 :: ls) (snd p) in Ok (s :: ss)). rewrite P. cbn [bind]. rewrite U. cbn [bind]. rewrite U'. reflexivity.
  - cbn [layout_deep] in LD. rewrite ands_Forall in LD. destruct LD as (NE & _ & _ & LD).
    assert (exists ss, mapM (fun p => let* v := oden E (snd p) in Ok (fst p, v)) (ta_lab e (length ls) 0 ls) = Ok ss /\
      s = match t with None => SDict ss | Some g => SData g ss end) as (ss & H' & ->).
    { destruct t; cbn [to_array oden] in H; fold (ta_lab e (length ls)) in H; apply bind_ok in H as (ss & H & Q); injection Q as <-; eauto. }
    clear H. rename H' into H. cbn [unpack]. fold unpack_lab.
    enough (G : forall k n, n = k + length ls /\ True -> forall ss, mapM (fun p => let* v := oden E (snd p) in Ok (fst p, v)) (ta_lab e n k ls) = Ok ss ->
      exists w, den E (Nat.iter k PSecond e) = Ok w /\ unpack_lab ls w = Ok ss).
    { destruct (G 0 (length ls) (conj eq_refl I) ss H) as (w & D & U). simpl in D. exists w. rewrite U. auto. }
    clear H ss. revert NE. induction IH as [|[m l] ls Hl _ IHls]; intros NE k n Hn ss H; [congruence|]. inversion LD as [|? ? LD1 LD2]; subst. cbn [snd] in *.
    cbn [ta_lab mapM fst snd] in H. apply bind_ok in H as (s & H3 & H). apply bind_ok in H3 as (s' & H3 & Q). injection Q as <-.
    apply bind_ok in H as (ss' & H4 & H). injection H as <-.
    destruct (Hl LD1 _ _ H3) as (w & D & U). destruct ls as [|[m2 l2] ls].
    + assert (Hlt : (k + 1 <? n) = false) by (apply Nat.ltb_ge; simpl in Hn; lia).
      unfold project_tuple in D. rewrite Hlt in D. cbn [ta_lab mapM] in H4. injection H4 as <-. exists w. split; auto. cbn [unpack_lab]. rewrite U. reflexivity.
    + assert (Hlt : (k + 1 <? n) = true) by (apply Nat.ltb_lt; simpl in Hn; lia).
      unfold project_tuple in D. rewrite Hlt in D. fold (ta_lab e n) in H4.
      destruct (IHls LD2 ltac:(discriminate) (S k) n ltac:(simpl in *; lia) _ H4) as (w' & D' & U').
      simpl Nat.iter in D'. cbn [den] in D, D'. apply bind_ok in D as (x & X & D). apply bind_ok in D as (p & P & D). injection D as <-.
      rewrite X in D'. cbn [bind] in D'. rewrite P in D'. cbn [bind] in D'. injection D' as <-. exists x. split; auto.
      change (unpack_lab ((m, l) :: (m2, l2) :: ls) x) with (let* p := as_pair x in let* s := unpack (fst p) l in let* ss := unpack_lab ((m2, l2) :: ls) (snd p) in Ok ((m, s) :: ss)). rewrite P. cbn [bind]. rewrite U. cbn [bind]. rewrite U'. reflexivity.
Qed.

Variable c : phi.
Variable n1 : nat.
Hypothesis CM : forall m, n1 <= m -> ~ mentions (SX m) c.

(** How accesses through earlier indices reach the leaves of the result. *)
Definition tracks (n : nat) (lt lf lr : list phi) : Prop := forall n0 T F, n1 <= n0 < n ->
  Forall (fun e => seen n0 T F e /\ ~ In (SX n0) (bsyms e)) lt -> Forall (fun e => seen n0 T F e /\ ~ In (SX n0) (bsyms e)) lf ->
  Forall (seen n0 T F) lr /\ (Forall (acc n0 T) lt -> Forall (acc n0 T) lr) /\ (Forall (acc n0 F) lf -> Forall (acc n0 F) lr).

Lemma tracks_app n m lt lf lr lt' lf' lr' : n <= m -> tracks n lt lf lr -> tracks m lt' lf' lr' -> tracks n (lt ++ lt') (lf ++ lf') (lr ++ lr').
Proof.
  intros L H H' n0 T F R HT HF. apply Forall_app in HT as [T1 T2]. apply Forall_app in HF as [F1 F2].
  destruct (H n0 T F R T1 F1) as (A1 & A2 & A3). destruct (H' n0 T F ltac:(lia) T2 F2) as (B1 & B2 & B3).
  split; [apply Forall_app; auto|]. split; intros Q; apply Forall_app in Q as [Q1 Q2]; apply Forall_app; auto.
Qed.

Definition chooses (l : layout) : Prop := forall n t f r, n1 <= n -> where_map dict_attr l c n t f = Ok r ->
  layout_deep l -> obj_ok dict_attr t -> obj_ok dict_attr f -> build_layout t = Ok l -> build_layout f = Ok l ->
  Forall (fine n) (obj_leaves t) -> Forall (fine n) (obj_leaves f) ->
  obj_ok dict_attr r /\ build_layout r = Ok l /\ tracks n (obj_leaves t) (obj_leaves f) (obj_leaves r) /\
  forall E b sr, env_wf E -> den E c = Ok (vscalar (SB b)) -> oden E r = Ok sr ->
    exists st sf, oden E t = Ok st /\ oden E f = Ok sf /\ sr = if b then st else sf.

Lemma chooses_atom : chooses LAtom.
Proof.
  intros n t f r Ln H _ OT OF BT BF GT GF. cbn [where_map] in H.
  apply bind_ok in H as ([et lt] & WT & H). apply bind_ok in H as ([ef lf] & WF & H). apply bind_ok in H as (q & HQ & H). injection H as <-.
  apply mk_ok in HQ as [-> _]. cbn [fst].
  assert (G : forall o e l, obj_ok dict_attr o -> build_layout o = Ok LAtom -> Forall (fine n) (obj_leaves o) -> wrap o = Ok (e, l) ->
    obj_leaves o = [e] /\ fine n e /\ forall E v, den E e = Ok v -> oden E o = Ok (SArr v LAtom)).
  { clear. intros o e l OK B C HW. destruct o; simpl in HW; try discriminate.
    - simpl in B. injection B as ->. injection HW as <- <-. simpl in C. inversion C; subst. split; [reflexivity|]. split; auto.
      intros E v D. simpl. rewrite D. reflexivity.
    - simpl in OK. rewrite OK in HW. simpl in HW. injection HW as <- <-. simpl in C. inversion C; subst. split; [reflexivity|]. split; auto.
      intros E v D. simpl in *. rewrite OK. simpl. congruence. }
  destruct (G _ _ _ OT BT GT WT) as (LT & FT & DT). destruct (G _ _ _ OF BF GF WF) as (LF & FF & DF).
  split; [exact I|]. split; [reflexivity|]. rewrite LT, LF. cbn [obj_leaves]. split.
  - intros n0 T F R HT HF. inversion HT as [|? ? [T1 T2] _]; inversion HF as [|? ? [F1 F2] _]; subst. split; [|split].
    + constructor; auto. apply seen_node; [reflexivity|discriminate|]. fa. apply seen_absent. apply CM. lia.
    + intros Q. inversion Q; subst. constructor; auto. eapply acc_child; [|eauto]. simpl. auto.
    + intros Q. inversion Q; subst. constructor; auto. eapply acc_child; [|eauto]. simpl. auto.
  - intros E b sr W DC DR. cbn [oden] in DR. apply bind_ok in DR as (v & DR & Q). injection Q as <-. cbn [den] in DR.
    rewrite DC in DR. cbn [bind] in DR. apply bind_ok in DR as (vt & D1 & DR). apply bind_ok in DR as (vf & D2 & L).
    exists (SArr vt LAtom), (SArr vf LAtom). split; [auto|]. split; [auto|].
    assert (W1 : val_wf vt) by (eapply den_wf; [apply FT|exact W|exact D1]). assert (W2 : val_wf vf) by (eapply den_wf; [apply FF|exact W|exact D2]).
    unfold lift3 in L. cbn [val_scalar vscalar] in L.
    apply bind_ok in L as (s0 & S0 & L). injection S0 as <-. apply bind_ok in L as (s1 & S1 & L). apply bind_ok in L as (s2 & S2 & L).
    apply val_scalar_wf in S1; auto. apply val_scalar_wf in S2; auto. subst.
    apply bind_ok in L as (s & S & L). injection L as <-. simpl in S. destruct (kind_eqb _ _); [|discriminate]. injection S as <-. destruct b; reflexivity.
Qed.

(** Projections keep what is known of accesses. *)
Lemma seen_project n0 T F e i k : seen n0 T F e /\ ~ In (SX n0) (bsyms e) -> seen n0 T F (project_tuple e i k) /\ ~ In (SX n0) (bsyms (project_tuple e i k)).
Proof.
  intros H. unfold project_tuple.
  assert (G : seen n0 T F (Nat.iter i PSecond e) /\ ~ In (SX n0) (bsyms (Nat.iter i PSecond e))).
  { induction i as [|i [I1 I2]]; simpl; auto. split; auto. apply seen_node; [reflexivity|discriminate|]. fa. }
  destruct (i + 1 <? k); auto. destruct G as [G1 G2]. split; auto. apply seen_node; [reflexivity|discriminate|]. fa.
Qed.
Lemma acc_project n0 T e i k : acc n0 T e -> acc n0 T (project_tuple e i k).
Proof.
  intros H. unfold project_tuple. assert (G : acc n0 T (Nat.iter i PSecond e)).
  { induction i; simpl; auto. eapply acc_child; [|eauto]. simpl. auto. }
  destruct (i + 1 <? k); auto. eapply acc_child; [|eauto]. simpl. auto.
Qed.
Lemma seen_get n0 n T F e : n0 <> n -> seen n0 T F e /\ ~ In (SX n0) (bsyms e) -> seen n0 T F (PGet e (p_at n)) /\ ~ In (SX n0) (bsyms (PGet e (p_at n))).
Proof.
  intros N [H1 H2]. split; [|simpl; rewrite app_nil_r; auto]. apply seen_node; [reflexivity|intros t ty Q; injection Q; congruence|].
  fa. intros t C A. inversion A as [|? ? ? Hin _]; subst. destruct Hin.
Qed.

Lemma chooses_vec sub : chooses sub -> chooses (LVec sub).
Proof.
  intros IH n t f r Ln H LD OT OF BT BF GT GF. cbn [where_map] in H.
  assert (G : forall o, obj_ok dict_attr o -> build_layout o = Ok (LVec sub) -> exists e, o = OArr e (LVec sub)).
  { clear. intros o OK B. destruct o; simpl in OK, B; try (inv_bind; discriminate).
    - injection B as ->. eauto.
    - rewrite OK in B. discriminate. }
  destruct (G t OT BT) as (te & ->). destruct (G f OF BF) as (fe & ->). clear G.
  cbn [obj_leaves] in GT, GF. inversion GT as [|? ? FT _]; inversion GF as [|? ? FF _]; subst. cbn [layout_deep] in LD.
  unfold f_array in H. cbn [map getitem wrap bind fst] in H.
  apply bind_ok in H as (made & HM & H). apply bind_ok in HM as (t' & H1 & HM). apply bind_ok in H1 as (x1 & H1 & Q). injection Q as ->.
  apply bind_ok in H1 as (g1 & H1 & Q). injection Q as <-. apply mk_ok in H1 as [-> _].
  apply bind_ok in HM as (f' & H1 & HM). apply bind_ok in H1 as (x2 & H1 & Q). injection Q as ->.
  apply bind_ok in H1 as (g2 & H1 & Q). injection Q as <-. apply mk_ok in H1 as [-> _].
  set (ge := PGet te (p_at n)) in *. set (gf := PGet fe (p_at n)) in *.
  apply bind_ok in HM as (lt & B1 & HM). apply bind_ok in HM as (lf & B2 & HM). apply bind_ok in HM as (u1 & _ & HM). apply bind_ok in HM as (u2 & _ & HM).
  clear lt lf B1 B2 u1 u2.
  destruct (to_array_ok dict_attr sub ge (layout_deep_ok _ LD)) as [O1 B1]. destruct (to_array_ok dict_attr sub gf (layout_deep_ok _ LD)) as [O2 B2].
  assert (F1 : Forall (fine (S n)) (obj_leaves (to_array ge sub))) by (apply unpack_leaves; [intros; apply fine_project; auto|apply fine_get; auto]).
  assert (F2 : Forall (fine (S n)) (obj_leaves (to_array gf sub))) by (apply unpack_leaves; [intros; apply fine_project; auto|apply fine_get; auto]).
  destruct (IH (S n) _ _ _ ltac:(lia) HM LD O1 O2 B1 B2 F1 F2) as (OM & BM & TM & SM).
  rewrite BM in H. cbn [bind] in H. apply bind_ok in H as (body & HB & H). cbn [wrap_all bind] in H. apply bind_ok in H as (szs & HI & H).
  cbn [infer_sizes mapM app] in HI. apply bind_ok in HI as (p & HI & Q). injection Q as <-. apply bind_ok in HI as (sz & HI & Q). injection Q as <-.
  apply bind_ok in H as (q & HQ & H). injection H as <-. cbn [vecs find fst] in HQ. cbn [bind] in HQ. rewrite sym_eqb_refl in HQ.
  apply mk_ok in HQ as [-> _]. cbn [snd length Nat.iter to_array].
  destruct FT as (CT & ST & UT & RT). destruct FF as (CF & SF & UF & RF).
  assert (NT : ~ In (SX n) (bsyms te) /\ ~ mentions (SX n) te) by (destruct (RT n (le_n n)); auto).
  assert (NF : ~ In (SX n) (bsyms fe) /\ ~ mentions (SX n) fe) by (destruct (RF n (le_n n)); auto).
  assert (PC : forall n0 T F a b, seen n0 T F a -> seen n0 T F b -> seen n0 T F (PCons a b)).
  { intros. apply seen_node; [reflexivity|discriminate|]. fa. }
  assert (PA : forall n0 T a b, acc n0 T a -> acc n0 T b -> acc n0 T (PCons a b)).
  { intros. eapply acc_child; [|eauto]. simpl. auto. }
  assert (LG : forall n0 T F e, seen n0 T F e /\ ~ In (SX n0) (bsyms e) ->
    Forall (fun e => seen n0 T F e /\ ~ In (SX n0) (bsyms e)) (obj_leaves (to_array e sub))).
  { intros n0 T F e He. apply (unpack_leaves (fun e => seen n0 T F e /\ ~ In (SX n0) (bsyms e))); auto. intros. apply seen_project; auto. }
  assert (SB : seen n te fe body /\ acc n te body /\ acc n fe body).
  { assert (HG : forall x, x = te \/ x = fe -> ~ mentions (SX n) x -> seen n te fe (PGet x (p_at n))).
    { intros x Hx Nx t0 C A. inversion A as [ty Q1 Q2|C' e' y Hy A']; subst.
      - split; [auto|intros s []].
      - exfalso. simpl in Hy. destruct Hy as [<-|[<-|[]]]; [apply Nx; eapply accessed_mentions; eauto|]. inversion A' as [|? ? ? Hin _]; subst. destruct Hin. }
    destruct (TM n te fe ltac:(lia)) as (T1 & T2 & T3).
    - apply LG. split; [apply HG; tauto|simpl; rewrite app_nil_r; tauto].
    - apply LG. split; [apply HG; tauto|simpl; rewrite app_nil_r; tauto].
    - split; [eapply (pack_leaves dict_attr (seen n te fe)); eauto|]. split.
      + eapply (pack_leaves dict_attr (acc n te)); eauto. apply T2. apply unpack_leaves; [intros; apply acc_project; auto|].
        exists []. apply acc_here.
      + eapply (pack_leaves dict_attr (acc n fe)); eauto. apply T3. apply unpack_leaves; [intros; apply acc_project; auto|].
        exists []. apply acc_here. }
  destruct SB as (SB & AT & AF).
  split; [exact I|]. split; [reflexivity|]. split.
  - intros n0 T F R HT HF. inversion HT as [|? ? T1 _]; inversion HF as [|? ? T2 _]; subst.
    destruct (TM n0 T F ltac:(lia)) as (R1 & R2 & R3); [apply LG, seen_get; [lia|auto]|apply LG, seen_get; [lia|auto]|].
    assert (SBo : seen n0 T F body) by (eapply (pack_leaves dict_attr (seen n0 T F)); eauto).
    split; [|split].
    + constructor; auto. intros t0 C A. inversion A as [|C' e' y Hy A']; subst. simpl in Hy. destruct Hy as [<-|[<-|[]]].
      * exfalso. apply (size_mentions body n te fe sz n0 HI SB); [apply T1|apply T2|]. eapply accessed_mentions; eauto.
      * destruct (SBo _ _ A') as [K1 K2]. split; auto. simpl. intros s [<-|Hs]; [exists n; split; [lia|auto]|auto].
    + intros Q. inversion Q; subst. constructor; auto. eapply acc_child; [simpl; right; left; reflexivity|].
      eapply (pack_leaves dict_attr (acc n0 T)); eauto. apply R2. apply unpack_leaves; [intros; apply acc_project; auto|]. eapply acc_child; [|eauto]. simpl. auto.
    + intros Q. inversion Q; subst. constructor; auto. eapply acc_child; [simpl; right; left; reflexivity|].
      eapply (pack_leaves dict_attr (acc n0 F)); eauto. apply R3. apply unpack_leaves; [intros; apply acc_project; auto|]. eapply acc_child; [|eauto]. simpl. auto.
  - intros E b sr W DC DR. cbn [oden] in DR. apply bind_ok in DR as (v & DR & Q). injection Q as <-. cbn [den] in DR.
    apply bind_ok in DR as (vz & Dz & DR). apply bind_ok in DR as (z & Vz & DR). apply bind_ok in DR as (v0 & D0 & DR). apply bind_ok in DR as (vs & DV & DR).
    assert (AG : forall k y, ~ mentions (SX n) y -> den (upd E (SX n) (vint k)) y = den E y).
    { intros k y Hy. apply den_ext. intros s Hs. apply upd_neq. intros ->. apply Hy. apply isfree_mentions. auto. }
    assert (EL : forall k u, den (upd E (SX n) (vint k)) body = Ok u -> exists vt vf, den E te = Ok vt /\ den E fe = Ok vf /\ vget (if b then vt else vf) k = Ok u).
    { intros k u Du. destruct (pack_all dict_attr (upd E (SX n) (vint k)) made OM sub body BM HB) as [P1 _]. destruct (P1 u Du) as (s & S1 & S2).
      destruct (SM (upd E (SX n) (vint k)) b s) as (st & sf & A1 & A2 & A3); auto.
      { apply env_wf_upd; auto. apply vscalar_wf. } { rewrite AG; auto. }
      destruct (oden_of_array _ sub LD _ _ A1) as (wt & W1 & U1). destruct (oden_of_array _ sub LD _ _ A2) as (wf & W2 & U2).
      unfold ge in W1. unfold gf in W2. cbn [den p_at] in W1, W2. rewrite (AG k te) in W1 by tauto. rewrite (AG k fe) in W2 by tauto.
      apply bind_ok in W1 as (vt & V1 & W1). rewrite upd_eq in W1. cbn [of_opt bind val_int vint vscalar val_scalar] in W1.
      apply bind_ok in W2 as (vf & V2 & W2). rewrite upd_eq in W2. cbn [of_opt bind val_int vint vscalar val_scalar] in W2.
      exists vt, vf. split; auto. split; auto. destruct b; subst s.
      - rewrite <- (unpack_inj sub wt u st U1 S2). exact W1.
      - rewrite <- (unpack_inj sub wf u sf U2 S2). exact W2. }
    destruct (EL 0%Z v0 D0) as (vt & vf & V1 & V2 & G0). set (V := if b then vt else vf) in *.
    assert (GV : mapM (fun k => vget V (Z.of_nat k)) (seq 0 (Z.to_nat z)) = Ok vs).
    { clear - DV EL V1 V2 V. revert vs DV. induction (seq 0 (Z.to_nat z)) as [|k l IHl]; intros vs DV; cbn [mapM] in *; [auto|].
      apply bind_ok in DV as (u & Du & DV). apply bind_ok in DV as (us & Dus & Q). injection Q as <-.
      destruct (EL _ _ Du) as (vt' & vf' & W1 & W2 & GK). assert (vt' = vt) by congruence. assert (vf' = vf) by congruence. subst vt' vf'.
      fold V in GK. rewrite GK. cbn [bind]. rewrite (IHl us Dus). reflexivity. }
    assert (DX : exists X, (X = te \/ X = fe) /\ den E X = Ok V) by (destruct b; [exists te|exists fe]; auto).
    destruct DX as (X & HX & DX).
    assert (FX : fine n X) by (destruct HX; subst X; repeat split; auto; apply RT || apply RF; auto).
    assert (AX : acc n X body) by (destruct HX; subst X; auto).
    assert (WX : val_wf V) by (eapply den_wf; [apply FX|exact W|exact DX]).
    pose proof (seen_size body n te fe X sz E vz z V HI SB AX FX Dz Vz DX) as DD.
    pose proof (vstack_vget V _ _ _ WX DD G0 GV) as VV. rewrite VV in DR. injection DR as <-.
    exists (SArr vt (LVec sub)), (SArr vf (LVec sub)). cbn [oden]. rewrite V1, V2. split; [reflexivity|]. split; [reflexivity|]. unfold V. destruct b; reflexivity.
Qed.

Lemma fine_mono n m e : n <= m -> fine n e -> fine m e.
Proof. intros L (C & S & U & F). repeat split; auto; apply F; lia. Qed.

Lemma tracks_nil n : tracks n [] [] [].
Proof. intros n0 T F _ _ _. repeat split; auto. Qed.

Lemma chooses_pos ls : Forall chooses ls -> Forall layout_deep ls -> forall n ts fs qs, n1 <= n ->
  wmap_pos dict_attr c n ls ts fs = Ok qs -> Forall (obj_ok dict_attr) ts -> Forall (obj_ok dict_attr) fs ->
  mapM build_layout ts = Ok ls -> mapM build_layout fs = Ok ls ->
  Forall (fine n) (flat_map obj_leaves ts) -> Forall (fine n) (flat_map obj_leaves fs) ->
  Forall (obj_ok dict_attr) qs /\ mapM build_layout qs = Ok ls /\ tracks n (flat_map obj_leaves ts) (flat_map obj_leaves fs) (flat_map obj_leaves qs) /\
  forall E b sr, env_wf E -> den E c = Ok (vscalar (SB b)) -> mapM (oden E) qs = Ok sr ->
    exists st sf, mapM (oden E) ts = Ok st /\ mapM (oden E) fs = Ok sf /\ sr = if b then st else sf.
Proof.
  induction 1 as [|l ls Hl _ IH]; intros LD n ts fs qs Ln H OT OF BT BF GT GF;
    destruct ts as [|t ts], fs as [|f fs]; try discriminate; try (cbn [mapM] in BT, BF; inv_bind; discriminate).
  - injection H as <-. split; [constructor|]. split; [reflexivity|]. split; [apply tracks_nil|].
    intros E b sr _ _ Q. injection Q as <-. exists [], []. destruct b; auto.
  - cbn [wmap_pos] in H. fold (wmap_pos dict_attr c) in H. apply bind_ok in H as (q & H1 & H). apply bind_ok in H as (qs' & H2 & H). injection H as <-.
    inversion LD as [|? ? L1 L2]; inversion OT as [|? ? OT1 OT2]; inversion OF as [|? ? OF1 OF2]; subst. simpl in GT, GF.
    apply Forall_app in GT as [GT1 GT2]. apply Forall_app in GF as [GF1 GF2].
    cbn [mapM] in BT, BF.
    apply bind_ok in BT as (x & BT1 & BT). apply bind_ok in BT as (xs & BT2 & BT). injection BT as -> ->.
    apply bind_ok in BF as (x & BF1 & BF). apply bind_ok in BF as (xs & BF2 & BF). injection BF as -> ->.
    destruct (Hl n t f q Ln H1 L1 OT1 OF1 BT1 BF1 GT1 GF1) as (A1 & A2 & A3 & A4).
    assert (LE : n <= n + lvecs l) by lia.
    destruct (IH L2 (n + lvecs l) ts fs qs' ltac:(lia) H2 OT2 OF2 BT2 BF2) as (B1 & B2 & B3 & B4);
      [eapply Forall_impl; [intros a; apply (fine_mono n); exact LE|auto]|eapply Forall_impl; [intros a; apply (fine_mono n); exact LE|auto]|].
    split; [auto|]. split; [cbn [mapM]; rewrite A2; cbn [bind]; rewrite B2; reflexivity|]. split; [cbn [flat_map]; eapply tracks_app; eauto|].
    intros E b sr W DC DR. cbn [mapM] in DR. apply bind_ok in DR as (s3 & DR1 & DR). apply bind_ok in DR as (ss3 & DR2 & DR). injection DR as <-.
    destruct (A4 E b s3 W DC DR1) as (st & sf & X1 & X2 & ->). destruct (B4 E b ss3 W DC DR2) as (sts & sfs & Y1 & Y2 & ->).
    exists (st :: sts), (sf :: sfs). cbn [mapM]. rewrite X1, X2. cbn [bind]. rewrite Y1, Y2. destruct b; auto.
Qed.

Lemma chooses_lab t f ls : Forall (fun p => chooses (snd p)) ls -> Forall (fun p => layout_deep (snd p)) ls -> forall n ts fs qs, n1 <= n ->
  wmap_lab dict_attr c t f n ls = Ok qs ->
  (forall p, In p ts -> get_name dict_attr (fst p) t = Ok (snd p)) -> (forall p, In p fs -> get_name dict_attr (fst p) f = Ok (snd p)) ->
  Forall (fun p => obj_ok dict_attr (snd p)) ts -> Forall (fun p => obj_ok dict_attr (snd p)) fs ->
  mapM (fun p => let* s := build_layout (snd p) in Ok (fst p, s)) ts = Ok ls ->
  mapM (fun p => let* s := build_layout (snd p) in Ok (fst p, s)) fs = Ok ls ->
  Forall (fine n) (flat_map (fun p => obj_leaves (snd p)) ts) -> Forall (fine n) (flat_map (fun p => obj_leaves (snd p)) fs) ->
  Forall (fun p => obj_ok dict_attr (snd p)) qs /\ map fst qs = map fst ls /\
  mapM (fun p => let* s := build_layout (snd p) in Ok (fst p, s)) qs = Ok ls /\
  tracks n (flat_map (fun p => obj_leaves (snd p)) ts) (flat_map (fun p => obj_leaves (snd p)) fs) (flat_map (fun p => obj_leaves (snd p)) qs) /\
  forall E b sr, env_wf E -> den E c = Ok (vscalar (SB b)) -> mapM (fun p => let* v := oden E (snd p) in Ok (fst p, v)) qs = Ok sr ->
    exists st sf, mapM (fun p => let* v := oden E (snd p) in Ok (fst p, v)) ts = Ok st /\
      mapM (fun p => let* v := oden E (snd p) in Ok (fst p, v)) fs = Ok sf /\ sr = if b then st else sf.
Proof.
  induction 1 as [|[m l] ls Hl _ IH]; intros LD n ts fs qs Ln H NT NF OT OF BT BF GT GF;
    (destruct ts as [|[m1 t1] ts]; [|pose proof (mapM_length _ _ _ BT) as L1; try discriminate L1]);
    (destruct fs as [|[m2 f2] fs]; [|pose proof (mapM_length _ _ _ BF) as L2; try discriminate L2]); try discriminate.
  - injection H as <-. split; [constructor|]. split; [reflexivity|]. split; [reflexivity|]. split; [apply tracks_nil|].
    intros E b sr _ _ Q. injection Q as <-. exists [], []. destruct b; auto.
  - cbn [wmap_lab] in H. fold (wmap_lab dict_attr c t f) in H. apply bind_ok in H as (t' & N1 & H). apply bind_ok in H as (f' & N2 & H).
    apply bind_ok in H as (q & H1 & H). apply bind_ok in H as (qs' & H2 & H). injection H as <-.
    inversion LD as [|? ? LD1 LD2]; inversion OT as [|? ? OT1 OT2]; inversion OF as [|? ? OF1 OF2]; subst. cbn [flat_map snd] in GT, GF.
    apply Forall_app in GT as [GT1 GT2]. apply Forall_app in GF as [GF1 GF2].
    cbn [mapM fst snd] in *.
    apply bind_ok in BT as (x & BT1 & BT). apply bind_ok in BT1 as (x1 & BT1 & Q). injection Q as <-.
    apply bind_ok in BT as (xs & BT2 & BT). injection BT as -> -> ->.
    apply bind_ok in BF as (x & BF1 & BF). apply bind_ok in BF1 as (x2 & BF1 & Q). injection Q as <-.
    apply bind_ok in BF as (xs & BF2 & BF). injection BF as -> -> ->.
    pose proof (NT _ (or_introl eq_refl)) as G1. cbn [fst snd] in G1. rewrite N1 in G1. injection G1 as ->.
    pose proof (NF _ (or_introl eq_refl)) as G2. cbn [fst snd] in G2. rewrite N2 in G2. injection G2 as ->.
    destruct (Hl n t1 f2 q Ln H1 LD1 OT1 OF1 BT1 BF1 GT1 GF1) as (A1 & A2 & A3 & A4).
    assert (LE : n <= n + lvecs l) by lia.
    destruct (IH LD2 (n + lvecs l) ts fs qs' ltac:(lia) H2 (fun p Hp => NT p (or_intror Hp)) (fun p Hp => NF p (or_intror Hp)) OT2 OF2 BT2 BF2) as (B1 & B1' & B2 & B3 & B4);
      [eapply Forall_impl; [intros a; apply (fine_mono n); exact LE|auto]|eapply Forall_impl; [intros a; apply (fine_mono n); exact LE|auto]|].
    split; [constructor; auto|]. split; [cbn [map fst]; congruence|]. split; [rewrite A2; cbn [bind]; rewrite B2; reflexivity|].
    split; [cbn [flat_map snd]; eapply tracks_app; eauto|].
    intros E b sr W DC DR. apply bind_ok in DR as (y & DR1 & DR). apply bind_ok in DR1 as (s3 & DR1 & Q). injection Q as <-.
    apply bind_ok in DR as (ss3 & DR2 & DR). injection DR as <-.
    destruct (A4 E b s3 W DC DR1) as (st & sf & X1 & X2 & ->). destruct (B4 E b ss3 W DC DR2) as (sts & sfs & Y1 & Y2 & ->).
    exists ((m, st) :: sts), ((m, sf) :: sfs). rewrite X1, X2. cbn [bind]. rewrite Y1, Y2. destruct b; auto.
Qed.

Lemma chooses_all l : chooses l.
Proof.
  induction l as [|s IH|ls IH|ls tag IH] using layout_ind'.
  - apply chooses_atom.
  - apply chooses_vec. auto.
  - intros n t f r Ln H LD OT OF BT BF GT GF. cbn [where_map] in H. fold (wmap_pos dict_attr c) in H.
    cbn [layout_deep] in LD. rewrite ands_Forall in LD. destruct LD as [NE LD].
    assert (G : forall o, obj_ok dict_attr o -> build_layout o = Ok (LPos ls) -> exists os, (o = OTup os \/ o = OList os) /\
      Forall (obj_ok dict_attr) os /\ mapM build_layout os = Ok ls /\ obj_leaves o = flat_map obj_leaves os /\
      forall E ss, mapM (oden E) os = Ok ss -> oden E o = Ok (STup ss)).
    { clear. intros o OK B. destruct o as [e l|a|os|os|fs|g fs]; simpl in OK; rewrite ?ands_Forall in OK; try (simpl in B; inv_bind; discriminate).
      - simpl in B. injection B as ->. simpl in OK. tauto.
      - simpl in B. rewrite OK in B. discriminate.
      - simpl in B. inv_bind. exists os. repeat split; eauto; [tauto|]. intros E ss Hs. cbn [oden]. rewrite Hs. reflexivity.
      - simpl in B. inv_bind. exists os. repeat split; eauto; [tauto|]. intros E ss Hs. cbn [oden]. rewrite Hs. reflexivity. }
    destruct (G t OT BT) as (ts & Q1 & O1 & B1 & L1 & D1). destruct (G f OF BF) as (fs & Q2 & O2 & B2 & L2 & D2).
    assert (H' : (let* qs := wmap_pos dict_attr c n ls ts fs in Ok (OTup qs)) = Ok r). { destruct Q1, Q2; subst; exact H. } clear H.
    rewrite L1 in *. rewrite L2 in *. apply bind_ok in H' as (qs & H & Q). injection Q as <-.
    destruct (chooses_pos ls IH LD n ts fs qs Ln H O1 O2 B1 B2 GT GF) as (A1 & A2 & A3 & A4).
    assert (NQ : qs <> []) by (pose proof (mapM_length _ _ _ A2) as K; destruct qs; [destruct ls; [congruence|discriminate K]|discriminate]).
    cbn [obj_ok build_layout obj_leaves]. rewrite ands_Forall. split; [auto|]. split; [|split; [auto|]].
    + destruct qs; [congruence|]. cbn [length Nat.eqb negb guard bind]. rewrite A2. reflexivity.
    + intros E b sr W DC DR. cbn [oden] in DR. apply bind_ok in DR as (sr' & DR & Q). injection Q as <-.
      destruct (A4 E b sr' W DC DR) as (st & sf & X1 & X2 & ->). exists (STup st), (STup sf). rewrite (D1 _ _ X1), (D2 _ _ X2). destruct b; auto.
  - intros n t f r Ln H LD OT OF BT BF GT GF. cbn [where_map] in H. fold (wmap_lab dict_attr c t f) in H.
    apply bind_ok in H as (qs & H & Q). injection Q as <-.
    cbn [layout_deep] in LD. rewrite ands_Forall in LD. destruct LD as (NE & ND & NA & LD).
    destruct (obj_fields dict_attr t ls tag OT BT) as (ts & Q1 & B1 & N1 & O1). destruct (obj_fields dict_attr f ls tag OF BF) as (fs & Q2 & B2 & N2 & O2).
    assert (LT : obj_leaves t = flat_map (fun p => obj_leaves (snd p)) ts) by (rewrite Q1; destruct tag; reflexivity).
    assert (LF : obj_leaves f = flat_map (fun p => obj_leaves (snd p)) fs) by (rewrite Q2; destruct tag; reflexivity).
    rewrite LT in *. rewrite LF in *.
    destruct (chooses_lab t f ls IH LD n ts fs qs Ln H N1 N2 O1 O2 B1 B2 GT GF) as (A1 & A1' & A2 & A3 & A4).
    assert (NQ : qs <> []) by (destruct qs; [destruct ls; [congruence|discriminate A1']|discriminate]).
    split; [|split; [|split]].
    + destruct tag as [g|]; cbn [obj_ok]; rewrite ands_Forall, A1'; auto.
    + destruct tag as [g|]; cbn [build_layout]; [rewrite A2; reflexivity|]. destruct qs; [congruence|]. cbn [length Nat.eqb negb guard bind]. rewrite A2. reflexivity.
    + destruct tag; exact A3.
    + intros E b sr W DC DR.
      destruct tag as [g|]; cbn [oden] in DR; apply bind_ok in DR as (sr' & DR & Q); injection Q as <-;
        destruct (A4 E b sr' W DC DR) as (st & sf & X1 & X2 & ->); rewrite Q1, Q2; cbn [oden]; rewrite X1, X2; cbn [bind];
        (eexists; eexists; split; [reflexivity|]; split; [reflexivity|]; destruct b; reflexivity).
Qed.

End Where.
End WhereVec.
