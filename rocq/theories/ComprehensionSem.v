(** Lemmas about the operations of Comprehension.v. *)
From Verif Require Import Base Scalar Tensor Types Sym Phi Den Term PhiTerm DenFree SpecPhi Lining DenWf Sizes SizeSound Layout Comprehension.

Section ComprehensionSem.
Context {FO : FloatOps} {EX : Externs}.
Variable dict_attr : nat -> bool.

Lemma mk_ok e e' : mk e = Ok e' -> e' = e /\ exists t, typ e = Ok t.
Proof. unfold mk. intros H. inv_bind. eauto. Qed.

(** Element by element. *)
Fixpoint vgets (v : val) (ks : list Z) : res val :=
  match ks with
  | [] => Ok v
  | k :: ks => let* w := vget v k in vgets w ks
  end.

Fixpoint gets (e : phi) (xs : list phi) : phi :=
  match xs with
  | [] => e
  | x :: xs => gets (PGet e x) xs
  end.

(** The indices have these values. *)
Fixpoint at_indices (E : env) (idx : list nat) (ks : list Z) : env :=
  match idx, ks with
  | i :: idx, k :: ks => at_indices (upd E (SX i) (vint k)) idx ks
  | _, _ => E
  end.

(** The scalar [x] has the integer value [k]. *)
Definition index_is (E : env) (x : obj) (k : Z) : Prop :=
  exists w, oden E x = Ok (SArr w LAtom) /\ val_int w = Ok k.

Lemma oden_wrap E x w l : oden E x = Ok (SArr w l) -> exists e, wrap x = Ok (e, l) /\ den E e = Ok w.
Proof.
  destruct x; simpl; intros H; apply bind_ok in H as (y & Hy & H); try discriminate; injection H as <- <-; eauto.
  rewrite Hy. simpl. eauto.
Qed.

Lemma vdim_vget_inv u : forall z v axis d, vget u z = Ok v -> vdim u (S axis) = Ok d -> vdim v axis = Ok d.
Proof.
  induction u as [a|u1 IH1 u2 IH2]; simpl; intros z v axis d H D; inv_bind.
  - unfold aget in Hb. destruct (ashape a) as [|n sh] eqn:S; [discriminate|]. injection Hb as <-.
    simpl. unfold asub. rewrite S. simpl. simpl in D. rewrite D. reflexivity.
  - simpl. rewrite (IH1 _ _ _ _ Hb2 Hb), (IH2 _ _ _ _ Hb3 Hb0). cbn [bind].
    rewrite Hb1. reflexivity.
Qed.

(** The values of the expression are proper. *)
Definition yields_wf (e : phi) : Prop := forall E v, env_wf E -> den E e = Ok v -> val_wf v.

Lemma den_vec E i sz b v : yields_wf b -> env_wf E -> den E (PVec i sz b) = Ok v ->
  exists d, vdim v 0 = Ok d /\ (exists w, den E sz = Ok w /\ (let* z := val_int w in Ok (Z.to_nat z)) = Ok d) /\
  (exists v0, den (upd E (SX i) (vint 0)) b = Ok v0 /\ forall ax, vdim v (S ax) = vdim v0 ax) /\
  forall k, k < d -> exists w, den (upd E (SX i) (vint (Z.of_nat k))) b = Ok w /\ vget v (Z.of_nat k) = Ok w.
Proof.
  intros C W H. cbn [den] in H. inv_bind. exists (length a2). split; [apply (vdim_vstack _ _ _ Hk0)|].
  assert (L : length a2 = Z.to_nat a0) by (apply mapM_length in Hb2; rewrite seq_length in Hb2; auto).
  split; [exists a; split; auto; rewrite Hb0; cbn [bind]; congruence|]. split.
  - exists a1. split; auto. intros ax. eapply vdim_vstack_S; eauto.
  - assert (Wv : Forall val_wf a2).
    { eapply mapM_all; [exact Hb2|]. intros k w _ Hw. cbv beta in Hw. eapply C; [|exact Hw]. apply env_wf_upd; auto. apply vscalar_wf. }
    intros k Hk. exists (nth k a2 a1). split.
    + pose proof (mapM_nth _ _ _ k 0 a1 Hb2) as Q. rewrite seq_length in Q. rewrite seq_nth in Q by lia. apply Q. lia.
    + apply (vget_vstack a1); auto.
Qed.

(** The nested comprehensions hold, at every position, the value of the body
    there. *)
Lemma vecs_wf szs body : yields_wf body -> forall idx e, vecs szs idx body = Ok e -> yields_wf e.
Proof.
  intros Y. induction idx as [|i idx IH]; intros e H; cbn [vecs] in H; [injection H as <-; auto|].
  apply bind_ok in H as (b & Hb & H). destruct (find _ szs) as [p|]; [|discriminate]. apply mk_ok in H as [-> _].
  intros E v W D. cbn [den] in D. inv_bind. eapply vstack_wf; [|eauto]. eapply mapM_all; [exact Hb3|].
  intros k w _ Hw. cbv beta in Hw. eapply (IH b Hb); [|exact Hw]. apply env_wf_upd; auto. apply vscalar_wf.
Qed.

Lemma vecs_get szs body : yields_wf body -> forall idx e, vecs szs idx body = Ok e -> forall E v ks,
  env_wf E -> den E e = Ok v -> length ks = length idx ->
  (forall j, j < length ks -> exists d, vdim v j = Ok d /\ (0 <= nth j ks 0 < Z.of_nat d)%Z) ->
  exists w, vgets v ks = Ok w /\ den (at_indices E idx ks) body = Ok w.
Proof.
  intros CB. induction idx as [|i idx IH]; intros e H E v ks W Hv L HR.
  - destruct ks; [|discriminate]. injection H as <-. simpl. eauto.
  - destruct ks as [|k ks]; [discriminate|]. cbn [vecs] in H. apply bind_ok in H as (b & Hb & H).
    destruct (find _ szs) as [p|]; [|discriminate]. apply mk_ok in H as [-> _].
    pose proof (vecs_wf _ _ CB _ _ Hb) as C2. destruct (den_vec _ _ _ _ _ C2 W Hv) as (d & Hd & _ & _ & G).
    destruct (HR 0) as (d' & Hd' & Hr); [simpl; lia|]. rewrite Hd in Hd'. injection Hd' as <-. simpl in Hr.
    destruct (G (Z.to_nat k)) as (w & D1 & D2); [lia|]. rewrite Z2Nat.id in D1, D2 by lia.
    destruct (IH b Hb (upd E (SX i) (vint k)) w ks) as (u & U1 & U2); auto.
    + apply env_wf_upd; auto. apply vscalar_wf.
    + intros j Hj. destruct (HR (S j)) as (d' & Hd' & Hr'); [simpl; lia|]. exists d'. split; auto.
      eapply vdim_vget_inv; eauto.
    + exists u. cbn [vgets]. rewrite D2. cbn [bind at_indices]. auto.
Qed.

Lemma gets_den E : forall xs ks e v, Forall2 (fun x k => exists w, den E x = Ok w /\ val_int w = Ok k) xs ks ->
  den E e = Ok v -> den E (gets e xs) = vgets v ks.
Proof.
  induction xs as [|x xs IH]; intros ks e v F He; inversion F; subst; simpl; auto.
  destruct H1 as (w & D1 & D2). destruct (vget v y) as [u|er] eqn:Q.
  - cbn [bind]. apply IH; auto. cbn [den]. rewrite He. cbn [bind]. rewrite D1. cbn [bind]. rewrite D2. exact Q.
  - cbn [bind]. assert (B : den E (PGet e x) = Err er). { cbn [den]. rewrite He. cbn [bind]. rewrite D1. cbn [bind]. rewrite D2. exact Q. }
    clear - B. revert e x B. induction xs as [|y xs IH]; intros e x B; auto. simpl. apply IH. cbn [den]. cbn [den] in B. rewrite B. reflexivity.
Qed.

Lemma iter_LVec n l : Nat.iter n LVec (LVec l) = LVec (Nat.iter n LVec l).
Proof. induction n; simpl; congruence. Qed.

(** Indexing with as many scalars as there are axes. *)
Lemma getitem_points m : forall xs n e l q, length xs = n ->
  getitem dict_attr (map IAt xs) m (to_array e (Nat.iter n LVec l)) = Ok q ->
  exists es, mapM wrap xs = Ok es /\ q = to_array (gets e (map fst es)) l.
Proof.
  induction xs as [|x xs IH]; intros n e l q L H; simpl in L; subst n.
  - simpl in H. injection H as <-. exists []. auto.
  - simpl in H. apply bind_ok in H as (x1 & H1 & H). apply bind_ok in H1 as (w & Hw & H1). apply bind_ok in H1 as (g & Hg & H1).
    injection H1 as <-. apply mk_ok in Hg as [-> _]. cbn [mapM]. rewrite Hw. cbn [bind].
    destruct (IH (length xs) _ _ _ eq_refl H) as (es & E1 & ->). rewrite E1. cbn [bind]. eauto.
Qed.

(** Constants of packed structures. *)
Lemma consts_wf_reduce es : forall e, reduce_cons es = Ok e -> Forall consts_wf es -> consts_wf e.
Proof.
  induction es as [|x es IH]; intros e H F; [discriminate|]. inversion F; subst. destruct es as [|y es].
  - injection H as <-. auto.
  - cbn [reduce_cons] in H. apply bind_ok in H as (r & Hr & H). injection H as <-. simpl. split; auto.
Qed.

Lemma consts_wf_pack (l : layout) : forall o e, struct_to_expr dict_attr l o = Ok e -> Forall consts_wf (obj_leaves o) -> consts_wf e.
Proof.
  assert (W : forall o e, (let* w := wrap o in Ok (fst w)) = Ok e -> Forall consts_wf (obj_leaves o) -> consts_wf e).
  { intros o e H F. destruct o; simpl in H; inv_bind; try discriminate; inversion F; auto. }
  assert (GN : forall n o x, get_name dict_attr n o = Ok x -> Forall consts_wf (obj_leaves o) -> Forall consts_wf (obj_leaves x)).
  { assert (LK : forall n (l : list (nat * obj)) x, lookup n l = Ok x -> Forall consts_wf (flat_map (fun p => obj_leaves (snd p)) l) -> Forall consts_wf (obj_leaves x)).
    { intros n l0 x. induction l0 as [|[m y] l0 IHl]; simpl; intros H F; [discriminate|]. apply Forall_app in F as [F1 F2].
      destruct (n =? m); [injection H as <-; auto|auto]. }
    intros n o x H F. destruct o; simpl in H; try discriminate; [destruct (dict_attr n); [discriminate|]|]; eapply LK; eauto. }
  induction l as [|s IH|ls IH|ls t IH] using layout_ind'; intros o e H F.
  - exact (W o e H F).
  - destruct o; simpl in H; try discriminate. injection H as <-. inversion F; auto.
  - cbn [struct_to_expr] in H. fold (s2e_pos dict_attr) in H.
    assert (G : forall ls, Forall (fun l => forall o e, struct_to_expr dict_attr l o = Ok e -> Forall consts_wf (obj_leaves o) -> consts_wf e) ls ->
      forall os es, Forall consts_wf (flat_map obj_leaves os) -> s2e_pos dict_attr ls os = Ok es -> Forall consts_wf es).
    { clear. induction 1 as [|l ls Hl _ IHls]; intros [|o os] es F H; cbn [s2e_pos] in H; try discriminate; [injection H as <-; auto|].
      fold (s2e_pos dict_attr) in H. simpl in F. apply Forall_app in F as [F1 F2]. inv_bind. constructor; eauto. }
    destruct o; try discriminate; apply bind_ok in H as (es & H1 & H2); eapply consts_wf_reduce; eauto.
  - cbn [struct_to_expr] in H. apply bind_ok in H as (es & H1 & H2). eapply consts_wf_reduce; eauto.
    eapply mapM_all; [exact H1|]. intros [n l] x Hin Hx. cbn [fst snd] in Hx. apply bind_ok in Hx as (y & Y1 & Y2).
    rewrite Forall_forall in IH. apply (IH _ Hin y x Y2). eapply GN; eauto.
Qed.

(** ** Vectors put together *)

Lemma vdim_pair v w ax n : vdim (VPair v w) ax = Ok n -> vdim v ax = Ok n /\ vdim w ax = Ok n.
Proof. simpl. intros H. inv_bind. apply Nat.eqb_eq in Hb1. subst. auto. Qed.

Lemma vdim_vconcat v : forall w u n, vconcat v w = Ok u -> vdim v 0 = Ok n -> forall m, vdim w 0 = Ok m -> vdim u 0 = Ok (n + m).
Proof.
  induction v as [a|v1 IH1 v2 IH2]; intros [b|w1 w2] u n H N m M; cbn [vconcat] in H; try discriminate; inv_bind.
  - unfold aconcat in Hb. destruct (ashape a) as [|x sh] eqn:SA; [discriminate|]. destruct (ashape b) as [|y sh'] eqn:SB; [discriminate|].
    inv_bind. simpl in *. rewrite SA in N. rewrite SB in M. simpl in *. injection N as <-. injection M as <-. reflexivity.
  - apply vdim_pair in N as [N1 N2]. apply vdim_pair in M as [M1 M2]. simpl. rewrite (IH1 _ _ _ Hb N1 _ M1), (IH2 _ _ _ Hb0 N2 _ M2).
    cbn [bind]. rewrite Nat.eqb_refl. reflexivity.
Qed.

Lemma clip_lt k n : k < n -> clip (Z.of_nat k) n = k.
Proof. apply clip_id. Qed.

Lemma vget_vconcat v : forall w u n m, vconcat v w = Ok u -> vdim v 0 = Ok n -> vdim w 0 = Ok m ->
  (forall k, k < n -> vget u (Z.of_nat k) = vget v (Z.of_nat k)) /\
  (forall k, k < m -> vget u (Z.of_nat (n + k)) = vget w (Z.of_nat k)).
Proof.
  induction v as [a|v1 IH1 v2 IH2]; intros [b|w1 w2] u n m H N M; cbn [vconcat] in H; try discriminate; inv_bind.
  - unfold aconcat in Hb. destruct (ashape a) as [|x sh] eqn:SA; [discriminate|]. destruct (ashape b) as [|y sh'] eqn:SB; [discriminate|].
    inv_bind. simpl in N, M. rewrite SA in N. rewrite SB in M. simpl in *. injection N as <-. injection M as <-.
    apply list_nat_eqb_eq in Hb0. subst sh'.
    assert (KE : akind a = akind b) by (destruct (akind a), (akind b); try reflexivity; discriminate).
    split; intros k Hk; unfold aget; cbn [ashape tab].
    + rewrite SA. rewrite !clip_lt by lia. cbn [bind]. do 2 f_equal. unfold asub. cbn [ashape akind tab tl]. rewrite SA. cbn [tl].
      apply tab_ext. intros idx Hi. rewrite get_tab by (apply inb_cons; split; [lia|auto]).
      replace (k <? x) with true by (symmetry; apply Nat.ltb_lt; lia). reflexivity.
    + rewrite SB. rewrite !clip_lt by lia. cbn [bind]. do 2 f_equal. unfold asub. cbn [ashape akind tab tl]. rewrite SB, KE. cbn [tl].
      apply tab_ext. intros idx Hi. rewrite get_tab by (apply inb_cons; split; [lia|auto]).
      replace (x + k <? x) with false by (symmetry; apply Nat.ltb_ge; lia). do 2 f_equal. lia.
  - apply vdim_pair in N as [N1 N2]. apply vdim_pair in M as [M1 M2].
    destruct (IH1 _ _ _ _ Hb N1 M1) as [A1 A2], (IH2 _ _ _ _ Hb0 N2 M2) as [B1 B2].
    split; intros k Hk; simpl; [rewrite A1, B1 by auto|rewrite A2, B2 by auto]; reflexivity.
Qed.

(** ** [where] on structures of scalars *)

Lemma val_scalar_wf v s : val_wf v -> val_scalar v = Ok s -> v = vscalar s.
Proof.
  destruct v as [[k sh d]|]; simpl; [|discriminate]. intros (L & T) H. unfold val_scalar in H. simpl in *.
  destruct sh; [|discriminate]. simpl in L. destruct d as [|x [|y d]]; try discriminate. injection H as <-.
  inversion T; subst. reflexivity.
Qed.

Definition wmap_pos (c : phi) := (fix go n ls ts fs := match ls, ts, fs with
            | [], [], [] => Ok []
            | l :: ls, t :: ts, f :: fs =>
                let* q := where_map dict_attr l c n t f in
                let* qs := go (n + lvecs l) ls ts fs in Ok (q :: qs)
            | _, _, _ => Err EValue
            end).
Definition wmap_lab (c : phi) (t f : obj) := (fix go n (ls : list (nat * layout)) := match ls with
        | [] => Ok []
        | (m, l) :: ls =>
            let* t' := get_name dict_attr m t in
            let* f' := get_name dict_attr m f in
            let* q := where_map dict_attr l c n t' f' in
            let* qs := go (n + lvecs l) ls in Ok ((m, q) :: qs)
        end).

Definition selects (l : layout) : Prop := forall E c n t f r b st sf sr,
  where_map dict_attr l c n t f = Ok r -> lvecs l = 0 -> obj_ok dict_attr t -> obj_ok dict_attr f ->
  build_layout t = Ok l -> build_layout f = Ok l -> env_wf E ->
  Forall consts_wf (obj_leaves t) -> Forall consts_wf (obj_leaves f) ->
  den E c = Ok (vscalar (SB b)) -> oden E t = Ok st -> oden E f = Ok sf -> oden E r = Ok sr -> sr = if b then st else sf.

Lemma selects_atom : selects LAtom.
Proof.
  intros E c n t f r b st sf sr H _ OT OF BT BF W CT CF DC DT DF DR. cbn [where_map] in H.
  apply bind_ok in H as ([et lt] & WT & H). apply bind_ok in H as ([ef lf] & WF & H). apply bind_ok in H as (q & HQ & H). injection H as <-.
  apply mk_ok in HQ as [-> _]. cbn [fst] in DR.
  assert (G : forall o e l s, obj_ok dict_attr o -> build_layout o = Ok LAtom -> Forall consts_wf (obj_leaves o) -> wrap o = Ok (e, l) -> oden E o = Ok s ->
    exists v, den E e = Ok v /\ s = SArr v LAtom /\ val_wf v).
  { clear - W. intros o e l s OK B C HW HO. assert (CE : consts_wf e /\ exists v, den E e = Ok v /\ s = SArr v LAtom).
    { destruct o; simpl in HW; try discriminate.
      - simpl in B. injection B as ->. injection HW as <- <-. simpl in HO. inv_bind. simpl in C. inversion C; subst. split; eauto.
      - simpl in OK. rewrite OK in HW. simpl in HW. injection HW as <- <-. simpl in HO. rewrite OK in HO. simpl in HO. injection HO as <-.
        simpl in C. inversion C; subst. split; auto. simpl. eauto. }
    destruct CE as (CE & v & D & ->). exists v. split; auto. split; auto. eapply den_wf; eauto. }
  destruct (G _ _ _ _ OT BT CT WT DT) as (vt & D1 & -> & W1). destruct (G _ _ _ _ OF BF CF WF DF) as (vf & D2 & -> & W2).
  simpl in DR. rewrite DC, D1, D2 in DR. cbn [bind] in DR. apply bind_ok in DR as (v & L & DR). injection DR as <-.
  unfold lift3 in L. cbn [val_scalar vscalar] in L.
  apply bind_ok in L as (s0 & S0 & L). injection S0 as <-. apply bind_ok in L as (s1 & S1 & L). apply bind_ok in L as (s2 & S2 & L).
  apply val_scalar_wf in S1; auto. apply val_scalar_wf in S2; auto. subst.
  apply bind_ok in L as (s & S & L). injection L as <-. simpl in S. destruct (kind_eqb _ _); [|discriminate]. injection S as <-. destruct b; reflexivity.
Qed.

Lemma list_sum_0 l : list_sum l = 0 -> Forall (fun n => n = 0) l.
Proof. induction l; simpl; constructor; [lia|apply IHl; lia]. Qed.

Lemma selects_pos E c b ls : Forall selects ls -> Forall (fun n => n = 0) (map lvecs ls) -> env_wf E -> den E c = Ok (vscalar (SB b)) ->
  forall n ts fs qs st sf sr,
  wmap_pos c n ls ts fs = Ok qs -> Forall (obj_ok dict_attr) ts -> Forall (obj_ok dict_attr) fs ->
  mapM build_layout ts = Ok ls -> mapM build_layout fs = Ok ls ->
  Forall consts_wf (flat_map obj_leaves ts) -> Forall consts_wf (flat_map obj_leaves fs) ->
  mapM (oden E) ts = Ok st -> mapM (oden E) fs = Ok sf -> mapM (oden E) qs = Ok sr -> sr = if b then st else sf.
Proof.
  intros F Z W DC. induction F as [|l ls Hl _ IH]; intros n ts fs qs st sf sr H OT OF BT BF CT CF DT DF DR;
    destruct ts as [|t ts], fs as [|f fs]; try discriminate.
  - injection H as <-. simpl in *. injection DT as <-. injection DF as <-. injection DR as <-. destruct b; reflexivity.
  - cbn [wmap_pos] in H. fold (wmap_pos c) in H. apply bind_ok in H as (q & H1 & H). apply bind_ok in H as (qs' & H2 & H). injection H as <-.
    inversion OT; inversion OF; inversion Z; subst. simpl in CT, CF. apply Forall_app in CT as [CT1 CT2]. apply Forall_app in CF as [CF1 CF2].
    cbn [mapM] in BT, BF, DT, DF, DR.
    apply bind_ok in BT as (x & BT1 & BT). apply bind_ok in BT as (xs & BT2 & BT). injection BT as -> ->.
    apply bind_ok in BF as (x & BF1 & BF). apply bind_ok in BF as (xs & BF2 & BF). injection BF as -> ->.
    apply bind_ok in DT as (s1 & DT1 & DT). apply bind_ok in DT as (ss1 & DT2 & DT). injection DT as <-.
    apply bind_ok in DF as (s2 & DF1 & DF). apply bind_ok in DF as (ss2 & DF2 & DF). injection DF as <-.
    apply bind_ok in DR as (s3 & DR1 & DR). apply bind_ok in DR as (ss3 & DR2 & DR). injection DR as <-.
    assert (s3 = if b then s1 else s2) by (eapply Hl; eauto).
    assert (ss3 = if b then ss1 else ss2) by (eapply IH; eauto). destruct b; congruence.
Qed.

Lemma selects_lab E c b t f ls : Forall (fun p => selects (snd p)) ls -> Forall (fun n => n = 0) (map (fun p => lvecs (snd p)) ls) ->
  env_wf E -> den E c = Ok (vscalar (SB b)) ->
  forall n ts fs qs st sf sr,
  wmap_lab c t f n ls = Ok qs ->
  (forall p, In p ts -> get_name dict_attr (fst p) t = Ok (snd p)) -> (forall p, In p fs -> get_name dict_attr (fst p) f = Ok (snd p)) ->
  Forall (fun p => obj_ok dict_attr (snd p)) ts -> Forall (fun p => obj_ok dict_attr (snd p)) fs ->
  mapM (fun p => let* s := build_layout (snd p) in Ok (fst p, s)) ts = Ok ls ->
  mapM (fun p => let* s := build_layout (snd p) in Ok (fst p, s)) fs = Ok ls ->
  Forall consts_wf (flat_map (fun p => obj_leaves (snd p)) ts) -> Forall consts_wf (flat_map (fun p => obj_leaves (snd p)) fs) ->
  mapM (fun p => let* v := oden E (snd p) in Ok (fst p, v)) ts = Ok st ->
  mapM (fun p => let* v := oden E (snd p) in Ok (fst p, v)) fs = Ok sf ->
  mapM (fun p => let* v := oden E (snd p) in Ok (fst p, v)) qs = Ok sr -> sr = if b then st else sf.
Proof.
  intros F Z W DC. induction F as [|[m l] ls Hl _ IH]; intros n ts fs qs st sf sr H GT GF OT OF BT BF CT CF DT DF DR;
    (destruct ts as [|[m1 t1] ts]; [|pose proof (mapM_length _ _ _ BT) as L1; try discriminate L1]);
    (destruct fs as [|[m2 f2] fs]; [|pose proof (mapM_length _ _ _ BF) as L2; try discriminate L2]); try discriminate.
  - injection H as <-. simpl in *. injection DT as <-. injection DF as <-. injection DR as <-. destruct b; reflexivity.
  - cbn [wmap_lab] in H. fold (wmap_lab c t f) in H. apply bind_ok in H as (t' & N1 & H). apply bind_ok in H as (f' & N2 & H).
    apply bind_ok in H as (q & H1 & H). apply bind_ok in H as (qs' & H2 & H). injection H as <-.
    inversion OT; inversion OF; inversion Z; subst. simpl in CT, CF. apply Forall_app in CT as [CT1 CT2]. apply Forall_app in CF as [CF1 CF2].
    cbn [mapM fst snd] in *.
    apply bind_ok in BT as (x & BT1 & BT). apply bind_ok in BT1 as (x1 & BT1 & Q). injection Q as <-.
    apply bind_ok in BT as (xs & BT2 & BT). injection BT as -> -> ->.
    apply bind_ok in BF as (x & BF1 & BF). apply bind_ok in BF1 as (x2 & BF1 & Q). injection Q as <-.
    apply bind_ok in BF as (xs & BF2 & BF). injection BF as -> -> ->.
    pose proof (GT _ (or_introl eq_refl)) as G1. cbn [fst snd] in G1. rewrite N1 in G1. injection G1 as ->.
    pose proof (GF _ (or_introl eq_refl)) as G2. cbn [fst snd] in G2. rewrite N2 in G2. injection G2 as ->.
    apply bind_ok in DT as (y & DT1 & DT). apply bind_ok in DT1 as (s1 & DT1 & Q). injection Q as <-. apply bind_ok in DT as (ss1 & DT2 & DT). injection DT as <-.
    apply bind_ok in DF as (y & DF1 & DF). apply bind_ok in DF1 as (s2 & DF1 & Q). injection Q as <-. apply bind_ok in DF as (ss2 & DF2 & DF). injection DF as <-.
    apply bind_ok in DR as (y & DR1 & DR). apply bind_ok in DR1 as (s3 & DR1 & Q). injection Q as <-. apply bind_ok in DR as (ss3 & DR2 & DR). injection DR as <-.
    assert (s3 = if b then s1 else s2) by (eapply Hl; eauto).
    assert (ss3 = if b then ss1 else ss2). { apply (IH H12 _ ts fs qs' ss1 ss2 ss3 H2); auto; intros p Hp; [apply GT|apply GF]; right; auto. }
    destruct b; congruence.
Qed.

Lemma obj_fields (o : obj) ls tag : obj_ok dict_attr o -> build_layout o = Ok (LLab ls tag) -> exists fs,
  o = match tag with None => ODict fs | Some g => OData g fs end /\
  mapM (fun p => let* s := build_layout (snd p) in Ok (fst p, s)) fs = Ok ls /\
  (forall p, In p fs -> get_name dict_attr (fst p) o = Ok (snd p)) /\ Forall (fun p => obj_ok dict_attr (snd p)) fs.
Proof.
  intros OK B. destruct o as [e l|a|os|os|fs|g fs]; simpl in OK; rewrite ?ands_Forall in OK.
  - simpl in B. injection B as ->. simpl in OK. tauto.
  - simpl in B. rewrite OK in B. discriminate.
  - simpl in B. inv_bind. discriminate.
  - simpl in B. inv_bind. discriminate.
  - cbn [build_layout] in B. apply bind_ok in B as (u & _ & B). apply bind_ok in B as (ls' & B & Q). injection Q as <- <-.
    destruct OK as (N & ND & NA & OK). exists fs. repeat split; auto. intros p Hp. simpl. rewrite Forall_forall in NA.
    rewrite NA by (apply in_map; auto). apply lookup_nth; auto.
  - cbn [build_layout] in B. apply bind_ok in B as (ls' & B & Q). injection Q as <- <-.
    destruct OK as (N & ND & OK). exists fs. repeat split; auto. intros p Hp. apply lookup_nth; auto.
Qed.

Lemma selects_all l : selects l.
Proof.
  induction l as [|s IH|ls IH|ls tag IH] using layout_ind'.
  - apply selects_atom.
  - intros E c n t f r b st sf sr _ Z. discriminate Z.
  - intros E c n t f r b st sf sr H Z OT OF BT BF W CT CF DC DT DF DR. cbn [where_map] in H. fold (wmap_pos c) in H.
    cbn [lvecs] in Z. apply list_sum_0 in Z.
    assert (G : forall o s, obj_ok dict_attr o -> build_layout o = Ok (LPos ls) -> oden E o = Ok s -> exists os ss, (o = OTup os \/ o = OList os) /\
      Forall (obj_ok dict_attr) os /\ mapM build_layout os = Ok ls /\ mapM (oden E) os = Ok ss /\ s = STup ss).
    { clear. intros o s OK B D. destruct o as [e l|a|os|os|fs|g fs]; simpl in OK; rewrite ?ands_Forall in OK; try (simpl in B; inv_bind; discriminate).
      - simpl in B. injection B as ->. simpl in OK. tauto.
      - simpl in B. rewrite OK in B. discriminate.
      - simpl in B, D. inv_bind. exists os. eexists. repeat split; eauto. tauto.
      - simpl in B, D. inv_bind. exists os. eexists. repeat split; eauto. tauto. }
    destruct (G t st OT BT DT) as (ts & st' & Q1 & O1 & B1 & D1 & ->). destruct (G f sf OF BF DF) as (fs & sf' & Q2 & O2 & B2 & D2 & ->).
    assert (H' : (let* qs := wmap_pos c n ls ts fs in Ok (OTup qs)) = Ok r). { destruct Q1, Q2; subst; exact H. } clear H.
    assert (LT : obj_leaves t = flat_map obj_leaves ts) by (destruct Q1; subst; reflexivity).
    assert (LF : obj_leaves f = flat_map obj_leaves fs) by (destruct Q2; subst; reflexivity). rewrite LT in CT. rewrite LF in CF.
    apply bind_ok in H' as (qs & H & Q). injection Q as <-. cbn [oden] in DR. apply bind_ok in DR as (sr' & DR & Q). injection Q as <-.
    assert (sr' = if b then st' else sf') by (eapply selects_pos; eauto). destruct b; congruence.
  - intros E c n t f r b st sf sr H Z OT OF BT BF W CT CF DC DT DF DR. cbn [where_map] in H. fold (wmap_lab c t f) in H.
    cbn [lvecs] in Z. apply list_sum_0 in Z. apply bind_ok in H as (qs & H & Q). injection Q as <-.
    destruct (obj_fields t ls tag OT BT) as (ts & Q1 & B1 & N1 & O1). destruct (obj_fields f ls tag OF BF) as (fs & Q2 & B2 & N2 & O2).
    destruct tag as [g|]; rewrite Q1 in CT, DT; rewrite Q2 in CF, DF; cbn [obj_leaves oden] in *;
      apply bind_ok in DT as (st' & DT & Q); injection Q as <-; apply bind_ok in DF as (sf' & DF & Q); injection Q as <-;
      apply bind_ok in DR as (sr' & DR & Q); injection Q as <-;
      assert (sr' = if b then st' else sf') by (eapply selects_lab; eauto); destruct b; congruence.
Qed.

End ComprehensionSem.
