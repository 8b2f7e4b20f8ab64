(** Programs with non-empty loops that access arrays by indices and counters of
    their size only: loops may be compiled to reductions. *)
From Verif Require Import Base Scalar Tensor Types Sym Phi Den Term PhiTerm DenFree SpecPhi Lining LiningFacts TypesFacts Typing DenWf
  Equiv Naive Sizes Subst ClipShift NdOps Yarr Axial AxialFacts AxialOps Codegen IndexOps YOps CodegenSafe SizeClasses Moments MomentFacts SizeSound SizeSafe NdFacts CodegenGet CodegenCtx CodegenCases CodegenAxes CodegenCorrect CodegenSub Direct.

Section Close.
Context {FO : FloatOps} {EX : Externs}.
Variable fl : flags.
Variable padk : kind -> bool.
Variable pade : bool.
Variable orc : oracle.
(** Whether every array can be padded. *)
Variable pads : bool.
Hypothesis PADS : pads = true -> pade = true /\ forall k, padk k = true.

(** What is known of the symbols in scope: indices and counters with terms they
    are below; variables that are integers of at least 1; variables without
    empty dimensions; variables of element types that can be padded. *)
Record known := mkKnown { bnd : list (sym * list phi); cnts : list nat; dims : list nat; flts : list nat }.

Definition others (s : sym) (l : list nat) : list nat := filter (fun x => negb (sym_eqb (SV x) s)) l.
Definition forget (s : sym) (C : known) : known :=
  mkKnown (map (fun p => (fst p, filter (avoids s) (snd p))) (filter (fun p => negb (sym_eqb (fst p) s)) (bnd C)))
    (others s (cnts C)) (others s (dims C)) (others s (flts C)).
Definition note (s : sym) (us : list phi) (C : known) : known :=
  mkKnown ((s, us) :: bnd C) (cnts C) (dims C) (flts C).
Definition within (C : known) (s : sym) (u : phi) : bool :=
  existsb (fun p => sym_eqb (fst p) s && existsb (phi_eqb u) (snd p)) (bnd C).

(** Sizes of at least 1; terms without empty dimensions. *)
Fixpoint positive (C : known) (e : phi) {struct e} : bool :=
  match e with
  | PDim t _ => full C t
  | PConst a => match adata a with [SI z] => (1 <=? z)%Z | _ => false end
  | PStore (SV x) _ => mem x (cnts C)
  | PAssertEq t _ => positive C t
  | _ => false
  end
with full (C : known) (e : phi) {struct e} : bool :=
  match e with
  | PConst a => forallb (fun n => 1 <=? n) (ashape a)
  | PStore (SV x) _ => mem x (dims C)
  | PAssertEq t _ | PGet t _ | PFirst t | PSecond t => full C t
  | PCons a b => full C a && full C b
  | PVec _ s b => positive C s && full C b
  | PDim _ _ | PUn _ _ | PBin _ _ _ | PWhere _ _ _ => true
  | _ => false
  end.
(** Terms of element types that can be padded. *)
Fixpoint paddable (C : known) (e : phi) : bool :=
  match e with
  | PConst a => padk (akind a)
  | PStore (SV x) _ => mem x (flts C)
  | PAssertEq t _ | PGet t _ | PFirst t | PSecond t | PVec _ _ t => paddable C t
  | PCons a b => paddable C a && paddable C b
  | _ => false
  end.

Definition vec_known (i : nat) (size : phi) (C : known) : known :=
  note (SX i) (filter (avoids (SX i)) (sizes_of size)) (forget (SX i) C).
Definition fold_known (c acc : nat) (size : phi) (C : known) : known :=
  note (SV c) (filter (fun u => avoids (SV c) u && avoids (SV acc) u) (sizes_of size)) (forget (SV c) (forget (SV acc) C)).
(** A loop compiled to a reduction: the summand does not use the accumulator. *)
Definition summand (c acc : nat) (body : phi) : bool :=
  match match_reduction_by_body body acc with
  | Some (elem, _) => avoids (SV acc) elem && negb (smem (SV c) (bsyms elem)) && negb (acc =? c)
  | None => true
  end.

Fixpoint close (C : known) (e : phi) : bool :=
  match e with
  | PConst _ | PStore _ _ => true
  | PLet x b body => close C b && close (forget (SV x) C) body
  | PAssertEq t _ | PDim t _ | PFirst t | PSecond t | PUn _ t => close C t
  | PGet t i => close C t && match i with PStore s _ => within C s (dim_of t 0) | _ => false end && (pads || full C t && paddable C t)
  | PCons a b | PBin _ a b | PConcat a b => close C a && close C b
  | PVec i size body => close C size && positive C size && close (vec_known i size C) body
  | PFold c size acc init body =>
      close C size && positive C size && close C init && close (fold_known c acc size C) body && summand c acc body
  | PReduce _ _ _ _ _ | PExt _ _ _ => false
  | PWhere c a b => close C c && close C a && close C b
  end.

(** ** What the checks mean *)
Fixpoint vfull (v : val) : Prop :=
  match v with VArr a => Forall (lt 0) (ashape a) | VPair v w => vfull v /\ vfull w end.
Fixpoint vpads (v : val) : Prop :=
  match v with VArr a => padk (akind a) = true | VPair v w => vpads v /\ vpads w end.

Record meets (C : known) (N : nat -> nat) (E : env) : Prop := {
  m_bnd : forall s us, In (s, us) (bnd C) -> exists v z, E s = Some v /\ val_int v = Ok z /\ (0 <= z)%Z /\
    forall u w m, In u us -> den E u = Ok w -> val_int w = Ok m -> (z < m)%Z /\ forall j, s = SX j -> Z.of_nat (N j) = m;
  m_cnt : forall x v z, In x (cnts C) -> E (SV x) = Some v -> val_int v = Ok z -> (1 <= z)%Z;
  m_dim : forall x v, In x (dims C) -> E (SV x) = Some v -> vfull v;
  m_flt : forall x v, In x (flts C) -> E (SV x) = Some v -> vpads v;
  m_one : forall j, 1 <= N j
}.

Lemma vget_full v : forall z w, vget v z = Ok w -> vfull v -> vfull w.
Proof.
  induction v as [a|v1 IH1 v2 IH2]; cbn [vget]; intros z w H F.
  - apply bind_ok in H as (b & Hb & H). injection H as <-. unfold aget in Hb. cbn [vfull] in *.
    destruct (ashape a) eqn:S; [discriminate|]. injection Hb as <-. cbn. rewrite S. inversion F; auto.
  - apply bind_ok in H as (x & Hx & H). apply bind_ok in H as (y & Hy & H). injection H as <-. destruct F. split; eauto.
Qed.
Lemma vget_pads v : forall z w, vget v z = Ok w -> vpads v -> vpads w.
Proof.
  induction v as [a|v1 IH1 v2 IH2]; cbn [vget]; intros z w H F.
  - apply bind_ok in H as (b & Hb & H). injection H as <-. unfold aget in Hb. cbn [vpads] in *.
    destruct (ashape a) eqn:S; [discriminate|]. injection Hb as <-. exact F.
  - apply bind_ok in H as (x & Hx & H). apply bind_ok in H as (y & Hy & H). injection H as <-. destruct F. split; eauto.
Qed.
Lemma vdim_full v : forall k n, vdim v k = Ok n -> vfull v -> 1 <= n.
Proof.
  induction v as [a|v1 IH1 v2 IH2]; cbn [vdim vfull]; intros k n H F.
  - destruct (nth_error (ashape a) k) eqn:Q; [|discriminate]. injection H as <-. rewrite Forall_forall in F. apply nth_error_In in Q. apply F. exact Q.
  - apply bind_ok in H as (x & Hx & H). apply bind_ok in H as (y & Hy & H). apply bind_ok in H as (g & _ & H). injection H as <-. destruct F. eauto.
Qed.
Lemma vstack_full t : forall vs v, vstack t vs = Ok v -> vfull t -> 0 < length vs -> vfull v.
Proof.
  induction t as [a|t1 IH1 t2 IH2]; cbn [vstack vfull]; intros vs v H F L.
  - apply bind_ok in H as (l & Hl & H). apply bind_ok in H as (g & _ & H). injection H as <-. cbn. constructor; auto.
    apply mapM_length in Hl. lia.
  - apply bind_ok in H as (ps & Hl & H). apply bind_ok in H as (x & Hx & H). apply bind_ok in H as (y & Hy & H). injection H as <-.
    apply mapM_length in Hl. destruct F. split; [eapply IH1|eapply IH2]; eauto; rewrite map_length; lia.
Qed.
Lemma vstack_pads t : forall vs v, vstack t vs = Ok v -> vpads t -> vpads v.
Proof.
  induction t as [a|t1 IH1 t2 IH2]; cbn [vstack vpads]; intros vs v H F.
  - apply bind_ok in H as (l & Hl & H). apply bind_ok in H as (g & _ & H). injection H as <-. exact F.
  - apply bind_ok in H as (ps & Hl & H). apply bind_ok in H as (x & Hx & H). apply bind_ok in H as (y & Hy & H). injection H as <-.
    destruct F. split; eauto.
Qed.

(** The part of [meets] about variables; indices do not matter for it. *)
Record vmeets (C : known) (E : env) : Prop := {
  v_cnt : forall x v z, In x (cnts C) -> E (SV x) = Some v -> val_int v = Ok z -> (1 <= z)%Z;
  v_dim : forall x v, In x (dims C) -> E (SV x) = Some v -> vfull v;
  v_flt : forall x v, In x (flts C) -> E (SV x) = Some v -> vpads v
}.
Lemma meets_v C N E : meets C N E -> vmeets C E.
Proof. intros [B K D F O]. split; auto. Qed.
Lemma vmeets_idx C E i v : vmeets C E -> vmeets C (upd E (SX i) v).
Proof. intros [K D F]. split; intros x; rewrite ?upd_neq by discriminate; eauto. Qed.

Lemma lift1_full f v w : lift1 f v = Ok w -> vfull w.
Proof. unfold lift1. intros H. apply bind_ok in H as (a & _ & H). apply bind_ok in H as (s & _ & H). injection H as <-. constructor. Qed.
Lemma lift2_full f v u w : lift2 f v u = Ok w -> vfull w.
Proof. unfold lift2. intros H. apply bind_ok in H as (a & _ & H). apply bind_ok in H as (b & _ & H). apply bind_ok in H as (s & _ & H). injection H as <-. constructor. Qed.
Lemma lift3_full f v u t w : lift3 f v u t = Ok w -> vfull w.
Proof.
  unfold lift3. intros H. apply bind_ok in H as (a & _ & H). apply bind_ok in H as (b & _ & H). apply bind_ok in H as (c & _ & H).
  apply bind_ok in H as (s & _ & H). injection H as <-. constructor.
Qed.

Lemma mem_spec x l : mem x l = true -> In x l.
Proof. unfold mem. intros H. apply existsb_exists in H as (y & Hy & Q). apply Nat.eqb_eq in Q. subst. auto. Qed.

Lemma filled C e : forall E, vmeets C E ->
  (positive C e = true -> forall v z, den E e = Ok v -> val_int v = Ok z -> (1 <= z)%Z) /\
  (full C e = true -> forall v, den E e = Ok v -> vfull v).
Proof.
  induction e using phi_ind'; intros E M; split; cbn [positive full]; try discriminate; intros Q.
  - intros v z D V. cbn [den] in D. injection D as <-. destruct (adata a) as [|[|i|] [|]] eqn:A; try discriminate.
    unfold val_int, as_int, as_scalar in V. cbn [as_arr bind] in V. destruct (ashape a) eqn:S; [|discriminate]. cbn [bind] in V.
    unfold get in V. rewrite A, S in V. cbn in V. injection V as <-. apply Z.leb_le. exact Q.
  - intros v D. cbn [den] in D. injection D as <-. cbn. rewrite forallb_forall in Q. apply Forall_forall. intros n Hn. specialize (Q n Hn). apply Nat.leb_le in Q. lia.
  - destruct s as [x|]; [|discriminate]. intros v z D V. cbn [den] in D. destruct (E (SV x)) eqn:HE; [|discriminate]. injection D as <-.
    eapply (v_cnt _ _ M); eauto. apply mem_spec. auto.
  - destruct s as [x|]; [|discriminate]. intros v D. cbn [den] in D. destruct (E (SV x)) eqn:HE; [|discriminate]. injection D as <-.
    eapply (v_dim _ _ M); eauto. apply mem_spec. auto.
  - intros v z D V. cbn [den] in D. apply bind_ok in D as (vs & _ & D). apply bind_ok in D as (zs & _ & D). apply bind_ok in D as (x & _ & D).
    destruct (IHe E M) as [P _]. eauto.
  - intros v D. cbn [den] in D. apply bind_ok in D as (vs & _ & D). apply bind_ok in D as (zs & _ & D). apply bind_ok in D as (x & _ & D).
    destruct (IHe E M) as [_ P]. eauto.
  - intros v z D V. cbn [den] in D. apply bind_ok in D as (u & Du & D). apply bind_ok in D as (n & Dn & D). injection D as <-. injection V as <-.
    destruct (IHe E M) as [_ P]. specialize (P Q _ Du). pose proof (vdim_full _ _ _ Dn P). lia.
  - intros v D. cbn [den] in D. apply bind_ok in D as (u & Du & D). apply bind_ok in D as (n & Dn & D). injection D as <-. constructor.
  - intros v D. cbn [den] in D. apply bind_ok in D as (u & Du & D). apply bind_ok in D as (w & Dw & D). apply bind_ok in D as (z & Dz & D).
    eapply vget_full; eauto. destruct (IHe1 E M) as [_ P]. eauto.
  - apply andb_true_iff in Q as [Q1 Q2]. intros v D. cbn [den] in D. apply bind_ok in D as (u & Du & D). apply bind_ok in D as (w & Dw & D). injection D as <-.
    destruct (IHe1 E M) as [_ P1], (IHe2 E M) as [_ P2]. split; eauto.
  - intros v D. cbn [den] in D. apply bind_ok in D as (u & Du & D). apply bind_ok in D as (p & Dp & D). injection D as <-.
    destruct (IHe E M) as [_ P]. specialize (P Q _ Du). rewrite (as_pair_inv _ _ Dp) in P. apply P.
  - intros v D. cbn [den] in D. apply bind_ok in D as (u & Du & D). apply bind_ok in D as (p & Dp & D). injection D as <-.
    destruct (IHe E M) as [_ P]. specialize (P Q _ Du). rewrite (as_pair_inv _ _ Dp) in P. apply P.
  - apply andb_true_iff in Q as [Q1 Q2]. intros v D. cbn [den] in D. apply bind_ok in D as (u & Du & D). apply bind_ok in D as (z & Dz & D).
    apply bind_ok in D as (v0 & D0 & D). apply bind_ok in D as (vs & Dv & D). destruct (IHe1 E M) as [P1 _].
    specialize (P1 Q1 _ _ Du Dz). apply mapM_length in Dv. rewrite seq_length in Dv. destruct (IHe2 (upd E (SX i) (vint 0)) (vmeets_idx _ _ _ _ M)) as [_ P2].
    eapply vstack_full; eauto. lia.
  - intros v D. cbn [den] in D. apply bind_ok in D as (u & Du & D). eapply lift1_full; eauto.
  - intros v D. cbn [den] in D. apply bind_ok in D as (u & Du & D). apply bind_ok in D as (w & Dw & D). eapply lift2_full; eauto.
  - intros v D. cbn [den] in D. apply bind_ok in D as (u & Du & D). apply bind_ok in D as (w & Dw & D). apply bind_ok in D as (x & Dx & D). eapply lift3_full; eauto.
Qed.
Lemma paddable_pads C e : forall E, vmeets C E -> paddable C e = true -> forall v, den E e = Ok v -> vpads v.
Proof.
  induction e using phi_ind'; intros E M Q v D; cbn [paddable] in Q; try discriminate; cbn [den] in D.
  - injection D as <-. exact Q.
  - destruct s as [x|]; [|discriminate]. destruct (E (SV x)) eqn:HE; [|discriminate]. injection D as <-.
    eapply (v_flt _ _ M); eauto. apply mem_spec. auto.
  - apply bind_ok in D as (vs & _ & D). apply bind_ok in D as (zs & _ & D). apply bind_ok in D as (x & _ & D). eauto.
  - apply bind_ok in D as (u & Du & D). apply bind_ok in D as (w & Dw & D). apply bind_ok in D as (z & Dz & D). eapply vget_pads; eauto.
  - apply andb_true_iff in Q as [Q1 Q2]. apply bind_ok in D as (u & Du & D). apply bind_ok in D as (w & Dw & D). injection D as <-. split; eauto.
  - apply bind_ok in D as (u & Du & D). apply bind_ok in D as (p & Dp & D). injection D as <-.
    pose proof (IHe E M Q _ Du) as P. rewrite (as_pair_inv _ _ Dp) in P. apply P.
  - apply bind_ok in D as (u & Du & D). apply bind_ok in D as (p & Dp & D). injection D as <-.
    pose proof (IHe E M Q _ Du) as P. rewrite (as_pair_inv _ _ Dp) in P. apply P.
  - apply bind_ok in D as (u & Du & D). apply bind_ok in D as (z & Dz & D). apply bind_ok in D as (v0 & D0 & D). apply bind_ok in D as (vs & Dv & D).
    eapply vstack_pads; eauto. eapply (IHe2 (upd E (SX i) (vint 0))); eauto. apply vmeets_idx. auto.
Qed.

(** Bindings *)
Lemma others_In s x l : In x (others s l) -> In x l /\ SV x <> s.
Proof.
  intros H. apply filter_In in H as [H Q]. split; auto. intros K. apply negb_true_iff in Q. rewrite K, sym_eqb_refl in Q. discriminate.
Qed.
Lemma forget_In s r us C : In (r, us) (bnd (forget s C)) -> exists us0, In (r, us0) (bnd C) /\ r <> s /\ us = filter (avoids s) us0.
Proof.
  intros H. apply in_map_iff in H as ([r' us'] & Q & I). cbn [fst snd] in Q. apply pair_equal_spec in Q as [<- <-].
  apply filter_In in I as [I Q]. cbn [fst] in Q. exists us'. split; auto. split; auto. intros K. apply negb_true_iff in Q.
  rewrite K, sym_eqb_refl in Q. discriminate.
Qed.
Lemma forget_meets C N E s v : meets C N E -> meets (forget s C) N (upd E s v).
Proof.
  intros [B K D F O]. split; auto.
  - intros r us I. apply forget_In in I as (us0 & I & NE & ->). destruct (B _ _ I) as (w & z & HE & HZ & P & L).
    exists w, z. rewrite upd_neq by auto. split; auto. split; auto. split; auto. intros u w' m Hu. apply filter_In in Hu as [Hu A]. rewrite avoids_den by exact A. eauto.
  - intros x w z I. apply others_In in I as [I NE]. rewrite upd_neq by auto. eauto.
  - intros x w I. apply others_In in I as [I NE]. rewrite upd_neq by auto. eauto.
  - intros x w I. apply others_In in I as [I NE]. rewrite upd_neq by auto. eauto.
Qed.
Lemma vec_meets C N E i size v z k : meets C N E -> den E size = Ok v -> val_int v = Ok z -> (1 <= z)%Z -> k < Z.to_nat z ->
  meets (vec_known i size C) (set_asg N i (Z.to_nat z)) (upd E (SX i) (vnat k)).
Proof.
  intros M D V P Hk. pose proof (forget_meets _ _ _ (SX i) (vnat k) M) as [B' K' D' F' O'].
  split; auto; [|intros j; unfold set_asg; destruct (j =? i); [lia|apply O']].
  intros s us [Q|I].
  - apply pair_equal_spec in Q as [<- <-]. exists (vnat k), (Z.of_nat k). split; [apply upd_eq|]. split; [reflexivity|]. split; [lia|].
    intros u w m Hu Du Vu. apply filter_In in Hu as [Hu A]. rewrite avoids_den in Du by exact A.
    rewrite (sizes_of_eq _ _ _ _ _ _ _ Hu D V Du Vu). split; [lia|]. intros j Q. injection Q as <-. unfold set_asg. rewrite Nat.eqb_refl. lia.
  - assert (NE : s <> SX i) by (apply forget_In in I as (us0 & _ & NE & _); exact NE).
    destruct (B' _ _ I) as (w & z' & HE & HZ & P' & L). exists w, z'. split; auto. split; auto. split; auto. intros u w0 m Hu Du Vu. split.
    + eapply L; eauto.
    + intros j Q. unfold set_asg. destruct (j =? i) eqn:J; [apply Nat.eqb_eq in J; subst; congruence|]. edestruct L as [_ L']; eauto.
Qed.
Lemma fold_meets C N E c acc size v z k w : meets C N E -> den E size = Ok v -> val_int v = Ok z -> k < Z.to_nat z ->
  meets (fold_known c acc size C) N (fold_env E c acc k w).
Proof.
  intros M D V Hk. pose proof (forget_meets _ _ _ (SV c) (vnat k) (forget_meets _ _ _ (SV acc) w M)) as [B' K' D' F' O'].
  split; auto. intros s us [Q|I]; [|apply B'; exact I].
  apply pair_equal_spec in Q as [<- <-]. exists (vnat k), (Z.of_nat k). split; [apply upd_eq|]. split; [reflexivity|]. split; [lia|].
  intros u w' m Hu Du Vu. apply filter_In in Hu as [Hu A]. apply andb_true_iff in A as [A1 A2]. unfold fold_env in Du. rewrite !avoids_den in Du by assumption.
  rewrite (sizes_of_eq _ _ _ _ _ _ _ Hu D V Du Vu). split; [lia|]. discriminate.
Qed.

(** ** Replacing a counter by an index *)
Lemma avoids_spec s u : avoids s u = true <-> ~ In s (fsyms u) /\ ~ In s (bsyms u).
Proof. unfold avoids. rewrite negb_true_iff, smem_not_In, in_app_iff. tauto. Qed.
Lemma avoids_kid s e c : avoids s e = true -> In c (subterms e) -> avoids s c = true.
Proof.
  rewrite !avoids_spec. intros [F B] Hc. rewrite bsyms_list, in_app_iff in B. split.
  - intros K. destruct (fsyms_child e c s Hc K); auto.
  - intros K. apply B. right. apply in_flat_map. eauto.
Qed.
Lemma avoids_dim s t : forall k, avoids s t = true -> avoids s (dim_of t k) = true.
Proof.
  induction t using phi_ind'; intros k Q; cbn [dim_of]; try (rewrite avoids_spec in *; exact Q).
  - apply IHt1. eapply avoids_kid; [exact Q|]. simpl; auto.
  - assert (Q1 : avoids s t1 = true) by (eapply avoids_kid; [exact Q|]; simpl; auto).
    assert (Q2 : avoids s t2 = true) by (eapply avoids_kid; [exact Q|]; simpl; auto).
    destruct k; auto.
Qed.
Lemma avoids_sizes s size u : In u (sizes_of size) -> avoids s size = true -> avoids s u = true.
Proof.
  intros [<-|I] A; auto. destruct size; try contradiction. destruct I as [<-|I].
  - eapply avoids_kid; [exact A|]. simpl. auto.
  - destruct (existsb _ ops); [|contradiction]. eapply avoids_kid; [exact A|]. simpl. auto.
Qed.

Section Replace.
Variables (c index : nat).
Notation sb := [(SV c, p_at index)].
Definition to_index (s : sym) : sym := if sym_eqb s (SV c) then SX index else s.

Lemma sb_atomic : atomic sb.
Proof. intros s u [Q|[]]. injection Q as <- <-. unfold p_at. eauto. Qed.
Lemma psub_avoids s u : s <> SX index -> avoids s u = true -> avoids s (psub sb u) = true.
Proof.
  rewrite !avoids_spec. intros N [F B]. rewrite (psub_bsyms _ _ sb_atomic). split; auto. intros K.
  apply (psub_fsyms _ _ _ sb_atomic) in K as [K|(r & t & [K|[]])]; auto. unfold p_at in K. injection K as _ <- _. auto.
Qed.
Lemma psub_unused u : avoids (SV c) u = true -> psub sb u = u.
Proof. rewrite avoids_spec. intros A. apply psub_id. intros s [<-|[]]. exact A. Qed.
Lemma psub_store s t : exists t', psub sb (PStore s t) = PStore (to_index s) t'.
Proof. cbn [psub]. unfold sassoc, to_index. cbn [find fst]. destruct (sym_eqb s (SV c)); cbn; unfold p_at; eauto. Qed.
Lemma psub_dim t : forall k, psub sb (dim_of t k) = dim_of (psub sb t) k.
Proof.
  induction t using phi_ind'; intros k; cbn [dim_of psub]; auto.
  - unfold sassoc. cbn [find fst]. destruct (sym_eqb s (SV c)); reflexivity.
  - destruct k; cbn [psub]; auto.
Qed.
Lemma psub_sizes size u : In u (sizes_of size) -> In (psub sb u) (sizes_of (psub sb size)).
Proof.
  intros [<-|I]; [left; reflexivity|]. destruct size; try contradiction. right. cbn [psub].
  destruct I as [<-|I]; [left; reflexivity|right]. destruct (existsb (phi_eqb size) ops) eqn:Q; [|contradiction].
  assert (Q' : existsb (phi_eqb (psub sb size)) (map (psub sb) ops) = true).
  { apply existsb_exists in Q as (t & Ht & Q). apply phi_eqb_eq in Q. subst t. apply existsb_exists. exists (psub sb size).
    split; [apply in_map; auto|apply phi_eqb_eq; auto]. }
  rewrite Q'. apply in_map. auto.
Qed.

(** What is known afterwards. *)
Record moves (C C' : known) : Prop := {
  r_bnd : forall s us, In (s, us) (bnd C) -> s <> SX index -> exists us', In (to_index s, us') (bnd C') /\
    forall u, In u us -> avoids (SX index) u = true -> In (psub sb u) us';
  r_cnt : incl (cnts C) (cnts C'); r_dim : incl (dims C) (dims C'); r_flt : incl (flts C) (flts C');
  r_no : ~ In c (cnts C) /\ ~ In c (dims C) /\ ~ In c (flts C)
}.

Lemma others_incl s l l' : incl l l' -> incl (others s l) (others s l').
Proof. intros H x Hx. apply filter_In in Hx as [Hx Q]. apply filter_In. auto. Qed.
Lemma to_index_neq s r : r <> SX index -> s <> r -> to_index s <> r.
Proof. unfold to_index. destruct (sym_eqb s (SV c)); congruence. Qed.

Lemma forget_moves s C C' : s <> SX index -> moves C C' -> moves (forget s C) (forget s C').
Proof.
  intros NI [B K D F (N1 & N2 & N3)]. split; cbn [cnts dims flts forget]; try (apply others_incl; assumption).
  - intros r us I NX. apply forget_In in I as (us0 & I & NE & ->). destruct (B _ _ I NX) as (us' & I' & L).
    exists (filter (avoids s) us'). split.
    + apply in_map_iff. exists (to_index r, us'). split; auto. apply filter_In. split; auto. cbn [fst]. apply negb_true_iff.
      apply sym_eqb_neq. apply to_index_neq; auto.
    + intros u Hu A. apply filter_In in Hu as [Hu A']. apply filter_In. split; auto. apply psub_avoids; auto.
  - repeat split; intros Q; apply others_In in Q as [Q _]; auto.
Qed.
Lemma note_moves s us us' C C' : s <> SX index -> s <> SV c -> (forall u, In u us -> avoids (SX index) u = true -> In (psub sb u) us') ->
  moves C C' -> moves (note s us C) (note s us' C').
Proof.
  intros NI NC L [B K D F NO]. split; auto. intros r rs [Q|I] NX.
  - apply pair_equal_spec in Q as [<- <-]. exists us'. split; auto. left. unfold to_index. apply sym_eqb_neq in NC. rewrite NC. reflexivity.
  - destruct (B _ _ I NX) as (us0 & I' & L'). exists us0. split; auto. right. exact I'.
Qed.
Lemma vec_moves i size C C' : i <> index -> moves C C' -> moves (vec_known i size C) (vec_known i (psub sb size) C').
Proof.
  intros NI M. assert (NI' : SX i <> SX index) by congruence. apply note_moves; [exact NI'|discriminate| |apply forget_moves; auto].
  intros u Hu A. apply filter_In in Hu as [Hu A']. apply filter_In. split; [apply psub_sizes; auto|apply psub_avoids; auto].
Qed.
Lemma fold_moves a acc size C C' : a <> c -> moves C C' -> moves (fold_known a acc size C) (fold_known a acc (psub sb size) C').
Proof.
  intros NI M. apply note_moves; [discriminate|congruence| |apply forget_moves; [discriminate|apply forget_moves; [discriminate|auto]]].
  intros u Hu A. apply filter_In in Hu as [Hu A']. apply andb_true_iff in A' as [A1 A2]. apply filter_In. split; [apply psub_sizes; auto|].
  rewrite !psub_avoids by (auto; discriminate). reflexivity.
Qed.

Lemma mem_incl x l l' : incl l l' -> mem x l = true -> mem x l' = true.
Proof. intros H M. apply mem_spec in M. apply existsb_exists. exists x. split; auto. apply Nat.eqb_refl. Qed.
Lemma psub_other x t : x <> c -> psub sb (PStore (SV x) t) = PStore (SV x) t.
Proof. intros N. cbn [psub]. unfold sassoc. cbn [find fst]. destruct (sym_eqb (SV x) (SV c)) eqn:Q; auto. apply sym_eqb_eq in Q. congruence. Qed.

Lemma filled_moves C C' e : moves C C' -> (positive C e = true -> positive C' (psub sb e) = true) /\ (full C e = true -> full C' (psub sb e) = true).
Proof.
  intros M. destruct (r_no _ _ M) as (N1 & N2 & N3).
  induction e using phi_ind'; cbn [positive full]; split; try discriminate; try (intros _; reflexivity); try tauto; cbn [psub].
  - destruct s as [x|]; [|discriminate]. intros Q. change (positive C' (psub sb (PStore (SV x) t)) = true).
    rewrite psub_other by (intros ->; apply mem_spec in Q; auto). eapply mem_incl; [apply (r_cnt _ _ M)|exact Q].
  - destruct s as [x|]; [|discriminate]. intros Q. change (full C' (psub sb (PStore (SV x) t)) = true).
    rewrite psub_other by (intros ->; apply mem_spec in Q; auto). eapply mem_incl; [apply (r_dim _ _ M)|exact Q].
  - intros Q. apply andb_true_iff in Q as [Q1 Q2]. cbn [full]. apply andb_true_iff. tauto.
  - intros Q. apply andb_true_iff in Q as [Q1 Q2]. cbn [full]. apply andb_true_iff. tauto.
Qed.
Lemma paddable_moves C C' e : moves C C' -> paddable C e = true -> paddable C' (psub sb e) = true.
Proof.
  intros M. destruct (r_no _ _ M) as (N1 & N2 & N3).
  induction e using phi_ind'; cbn [paddable]; try discriminate; auto; cbn [psub].
  - destruct s as [x|]; [|discriminate]. intros Q. change (paddable C' (psub sb (PStore (SV x) t)) = true).
    rewrite psub_other by (intros ->; apply mem_spec in Q; auto). eapply mem_incl; [apply (r_flt _ _ M)|exact Q].
  - intros Q. apply andb_true_iff in Q as [Q1 Q2]. cbn [paddable]. apply andb_true_iff. tauto.
Qed.
Lemma within_moves C C' s u : moves C C' -> s <> SX index -> avoids (SX index) u = true -> within C s u = true ->
  within C' (to_index s) (psub sb u) = true.
Proof.
  intros M NX A W. unfold within in *. apply existsb_exists in W as ([r us] & I & W). cbn [fst snd] in W. apply andb_true_iff in W as [W1 W2].
  apply sym_eqb_eq in W1. subst r. apply existsb_exists in W2 as (u' & Hu & W2). apply phi_eqb_eq in W2. subst u'.
  destruct (r_bnd _ _ M _ _ I NX) as (us' & I' & L). apply existsb_exists. exists (to_index s, us'). split; auto. cbn [fst snd].
  rewrite sym_eqb_refl. cbn [andb]. apply existsb_exists. exists (psub sb u). split; auto. apply phi_eqb_eq. reflexivity.
Qed.

Lemma is_store_psub acc e : acc <> c -> is_store acc (psub sb e) = is_store acc e.
Proof.
  intros N. destruct e; auto. destruct (psub_store s t) as (t' & ->). unfold is_store, to_index.
  destruct (sym_eqb s (SV c)) eqn:Q; auto. apply sym_eqb_eq in Q. subst s. cbn. symmetry. apply Nat.eqb_neq. auto.
Qed.
Lemma summand_psub a acc body : acc <> c -> avoids (SX index) body = true -> summand a acc body = true -> summand a acc (psub sb body) = true.
Proof.
  intros N A S. unfold summand in *. 
  destruct (match_reduction_by_body (psub sb body) acc) as [[elem r]|] eqn:M; auto.
  assert (K : exists elem0, match_reduction_by_body body acc = Some (elem0, r) /\ elem = psub sb elem0).
  { destruct body; try discriminate M.
    - destruct (psub_store s t) as (t' & Q). rewrite Q in M. discriminate.
    - cbn [psub match_reduction_by_body] in M |- *. rewrite !is_store_psub in M by auto.
      destruct o; try discriminate; (destruct (is_store acc body1); [|destruct (is_store acc body2); [|discriminate]]); apply (f_equal (fun o => match o with Some p => p | None => (elem, r) end)) in M; apply pair_equal_spec in M as [<- <-]; eauto. }
  destruct K as (elem0 & Q & ->). rewrite Q in S. apply andb_true_iff in S as [S S2]. apply andb_true_iff in S as [S1 S3].
  rewrite psub_avoids by (auto; discriminate). rewrite (psub_bsyms _ _ sb_atomic), S3. exact S2.
Qed.

Lemma close_moves e : forall C C', moves C C' -> ~ In (SV c) (bsyms e) -> avoids (SX index) e = true ->
  close C e = true -> close C' (psub sb e) = true.
Proof.
  induction e using phi_ind'; intros C C' M NB A Q; cbn [close] in Q; try discriminate;
    repeat match goal with Q : _ && _ = true |- _ => apply andb_true_iff in Q as [Q ?] end;
    simpl in NB; rewrite ?in_app_iff in NB; simpl in NB; rewrite ?in_app_iff in NB;
    repeat match goal with IH : forall C C', moves C C' -> _ -> avoids _ ?x = true -> _ |- _ =>
      lazymatch goal with _ : avoids _ x = true |- _ => fail | _ =>
        assert (avoids (SX index) x = true) by (eapply avoids_kid; [exact A|]; simpl; auto) end end;
    cbn [psub].
  all: cbn [close]; repeat (apply andb_true_iff; split).
  all: try (match goal with IH : forall C C', moves C C' -> _ |- close _ (psub _ ?x) = true => eapply IH; [|tauto|assumption|eassumption]; first [exact M|idtac] end).
  - reflexivity.
  - change (close C' (psub sb (PStore s t)) = true). destruct (psub_store s t) as (t' & ->). reflexivity.
  - apply forget_moves; [discriminate|exact M].
  - destruct e2; try discriminate. destruct (psub_store s t) as (t' & ->). rewrite <- psub_dim. apply within_moves with (C := C); auto.
    + intros ->. match goal with K : avoids _ (PStore _ _) = true |- _ => apply avoids_spec in K as [K _]; apply K; simpl; auto end.
    + apply avoids_dim. assumption.
  - destruct pads; auto. cbn [orb] in *. match goal with K : _ && _ = true |- _ => apply andb_true_iff in K as [K1 K2] end.
    destruct (filled_moves _ _ e1 M) as [_ P]. rewrite P by assumption. cbn [andb]. eapply paddable_moves; eauto.
  - destruct (filled_moves _ _ e1 M) as [P _]. auto.
  - apply vec_moves; [|exact M]. intros ->. apply avoids_spec in A as [_ A]. apply A. simpl. auto.
  - destruct (filled_moves _ _ e1 M) as [P _]. auto.
  - apply fold_moves; [intros ->; apply NB; auto|exact M].
  - apply summand_psub; [intros ->; apply NB; auto|assumption|assumption].
Qed.
End Replace.

(** ** Soundness *)
Lemma consts_wf_sub sb e : atomic sb -> consts_wf e -> consts_wf (psub sb e).
Proof.
  intros AT. induction e using phi_ind'; intros W; simpl in *; rewrite ?all_and_Forall in *;
    repeat match goal with W : _ /\ _ |- _ => destruct W end; repeat match goal with |- _ /\ _ => split end; auto.
  - destruct (sassoc s sb) as [u|] eqn:Q; simpl; auto. apply sassoc_some, AT in Q as (r & t' & ->). exact I.
  - rewrite Forall_forall in *. intros o Ho. apply in_map_iff in Ho as (o' & <- & Ho). auto.
  - rewrite Forall_forall in *. intros o Ho. apply in_map_iff in Ho as (o' & <- & Ho). auto.
  - rewrite Forall_forall in *. intros o Ho. apply in_map_iff in Ho as (o' & <- & Ho). auto.
Qed.
Lemma den_at c index (e : phi) E w v : ~ In (SV c) (bsyms e) -> avoids (SX index) e = true ->
  den (upd E (SV c) w) e = Ok v -> den (upd E (SX index) w) (psub [(SV c, p_at index)] e) = Ok v.
Proof.
  intros NB A D. rewrite <- substitute_psub by (intros s [<-|[]]; auto).
  apply (subst_many e [(SV c, p_at index)] [w] (upd E (SX index) w) v).
  - repeat constructor; auto.
  - cbn [map mapM snd]. unfold p_at. cbn [den]. rewrite upd_eq. reflexivity.
  - intros s t [Q|[]]. injection Q as <- _. exact NB.
  - intros s t r [Q|[]]. injection Q as _ <-. unfold p_at. cbn [free_in]. intros -> . apply avoids_spec in A as [_ A]. exact A.
  - cbn [map fst combine]. unfold upds. cbn [fold_left fst snd]. rewrite <- D. apply den_ext. intros s Hs.
    unfold upd. destruct (sym_eqb s (SV c)); auto. destruct (sym_eqb s (SX index)) eqn:Z; auto. apply sym_eqb_eq in Z. subst s. exfalso.
    apply avoids_spec in A. apply isfree_syms in Hs. tauto.
Qed.

Lemma val_scalar_inv v s : val_wf v -> val_scalar v = Ok s -> v = vscalar s.
Proof.
  intros W H. unfold val_scalar in H. apply bind_ok in H as (a & Ha & H). apply as_arr_inv in Ha. subst v. unfold vscalar. f_equal.
  apply as_scalar_ok; auto.
Qed.
Lemma sem_bin_same r a b s : sem_bin (rop_bop r) a b = Some s -> skind a = skind b /\ skind s = skind b.
Proof. destruct r, a, b; cbn; intros H; try discriminate; injection H as <-; auto. Qed.

(** The elements of a loop that is compiled to a reduction *)
Lemma loop_elems E c acc init body elem r n v : match_reduction_by_body body acc = Some (elem, r) ->
  avoids (SV acc) elem = true -> acc <> c -> consts_wf init -> consts_wf body -> env_wf E -> acc_val E c acc init body n = Ok v ->
  exists K, forall k, k < n -> exists s, den (upd E (SV c) (vnat k)) elem = Ok (vscalar s) /\ skind s = K.
Proof.
  intros M A NE WI WB WE D. apply reduction_elem in M as (a & b & -> & M).
  assert (STEP : forall k w w', val_wf w -> den (fold_env E c acc k w) (PBin (rop_bop r) a b) = Ok w' ->
    exists s se s', w = vscalar s /\ w' = vscalar s' /\ den (upd E (SV c) (vnat k)) elem = Ok (vscalar se) /\ skind s = skind se /\ skind s' = skind s).
  { intros k w w' Ww H. assert (WF : env_wf (fold_env E c acc k w)) by (apply env_wf_upd; [apply env_wf_upd; auto|apply ascalar_wf]).
    cbn [den] in H. apply bind_ok in H as (va & Ha & H). apply bind_ok in H as (vb & Hb & H).
    unfold lift2 in H. apply bind_ok in H as (sa & Sa & H). apply bind_ok in H as (sb & Sb & H). apply bind_ok in H as (s' & S' & H). injection H as <-.
    destruct WB as [Wa Wb]. apply val_scalar_inv in Sa; [|exact (den_wf _ _ _ Wa WF Ha)]. apply val_scalar_inv in Sb; [|exact (den_wf _ _ _ Wb WF Hb)]. subst va vb.
    destruct (sem_bin (rop_bop r) sa sb) as [s0|] eqn:Q; [|discriminate]. injection S' as <-. apply sem_bin_same in Q as [Q1 Q2].
    assert (AE : forall e0 x, avoids (SV acc) e0 = true -> den (fold_env E c acc k w) e0 = Ok x -> den (upd E (SV c) (vnat k)) e0 = Ok x).
    { intros e0 x A0 Dx. rewrite <- Dx. unfold fold_env. apply den_ext. intros s Hs. unfold upd. destruct (sym_eqb s (SV c)); auto.
      destruct (sym_eqb s (SV acc)) eqn:Z; auto. apply sym_eqb_eq in Z. subst s. apply avoids_spec in A0. apply isfree_syms in Hs. tauto. }
    assert (AC : forall e0 x, is_store acc e0 = true -> den (fold_env E c acc k w) e0 = Ok x -> x = w).
    { intros e0 x I0 Dx. destruct e0; try discriminate. cbn [is_store] in I0. apply sym_eqb_eq in I0. subst s. cbn [den] in Dx.
      unfold fold_env in Dx. rewrite upd_neq, upd_eq in Dx by congruence. cbn in Dx. congruence. }
    destruct M as [(I0 & ->)|(I0 & ->)].
    - exists sa, sb, s0. rewrite <- (AC _ _ I0 Ha). repeat split; auto; congruence.
    - exists sb, sa, s0. rewrite <- (AC _ _ I0 Hb). repeat split; auto; congruence. }
  assert (WW : forall k w, acc_val E c acc init (PBin (rop_bop r) a b) k = Ok w -> val_wf w).
  { induction k as [|k IH]; intros w H.
    - unfold acc_val in H. apply bind_ok in H as (v0 & H0 & H). cbn in H. injection H as <-. exact (den_wf _ _ _ WI WE H0).
    - apply MomentFacts.acc_val_S in H as (u & Hu & H). destruct (STEP k u w (IH _ Hu) H) as (s & se & s' & _ & -> & _). apply vscalar_wf. }
  destruct n as [|n]; [exists KInt; intros k Hk; lia|].
  destruct (acc_val_le _ _ _ _ _ _ 0 _ D ltac:(lia)) as (w0 & D0). destruct (acc_val_le _ _ _ _ _ _ 1 _ D ltac:(lia)) as (w1 & D1).
  rewrite (acc_val_step _ _ _ _ _ _ _ D0) in D1. destruct (STEP _ _ _ (WW _ _ D0) D1) as (s0 & _ & _ & -> & _).
  exists (skind s0).
  assert (AL : forall k, k <= n -> exists s, acc_val E c acc init (PBin (rop_bop r) a b) k = Ok (vscalar s) /\ skind s = skind s0).
  { induction k as [|k IH]; intros Hk; [eauto|]. destruct (IH ltac:(lia)) as (s & Hs & Q).
    destruct (acc_val_le _ _ _ _ _ _ (S k) _ D ltac:(lia)) as (w & Dw). pose proof Dw as Dw'. rewrite (acc_val_step _ _ _ _ _ _ _ Hs) in Dw.
    destruct (STEP _ _ _ (WW _ _ Hs) Dw) as (s1 & se & s' & Q1 & -> & _ & _ & Q2). exists s'. split; auto.
    unfold vscalar, ascalar in Q1. injection Q1 as Q1 _. congruence. }
  intros k Hk. destruct (AL k ltac:(lia)) as (s & Hs & Q).
  destruct (acc_val_le _ _ _ _ _ _ (S k) _ D ltac:(lia)) as (w & Dw). rewrite (acc_val_step _ _ _ _ _ _ _ Hs) in Dw.
  destruct (STEP _ _ _ (WW _ _ Hs) Dw) as (s1 & se & s' & Q1 & -> & De & Qk & Q2). exists se. split; auto.
  unfold vscalar, ascalar in Q1. injection Q1 as Q1 _. congruence.
Qed.

Lemma within_meets C N E s u v n : meets C N E -> within C s u = true -> E s = Some v -> (exists w z, den E u = Ok w /\ val_int w = Ok z /\ Z.to_nat z = n) ->
  1 <= n /\ forall j, s = SX j -> N j = n.
Proof.
  intros M W HE (w & z & D & V & <-). apply existsb_exists in W as ([r us] & I & W). cbn [fst snd] in W. apply andb_true_iff in W as [W1 W2].
  apply sym_eqb_eq in W1. subst r. apply existsb_exists in W2 as (u' & Hu & W2). apply phi_eqb_eq in W2. subst u'.
  destruct (m_bnd _ _ _ M _ _ I) as (v' & z' & _ & _ & P & L). destruct (L _ _ _ Hu D V) as [L1 L2]. split; [lia|].
  intros j Q. specialize (L2 j Q). lia.
Qed.

Lemma close_get C N E t s ts v : meets C N E -> within C s (dim_of t 0) = true -> pads || full C t && paddable C t = true ->
  E s = Some v -> get_safe fl orc padk pade N E t (PStore s ts).
Proof.
  intros M W P HE u n D V. destruct (within_meets _ _ _ _ _ _ n M W HE (dim_of_den _ _ _ _ _ D V)) as [L1 L2].
  destruct s as [x|j].
  - assert (Q : match_index_clipped_shift (PStore (SV x) ts) = None) by reflexivity. rewrite Q. destruct (use_slice_pads fl); exact L1.
  - assert (Q : match_index_clipped_shift (PStore (SX j) ts) = Some (j, (None, None, None))).
    { unfold match_index_clipped_shift, free_indices. cbn [fsyms filter is_index the_index forallb match_clipped_shift is_nil].
      rewrite sym_eqb_refl. reflexivity. }
    rewrite Q. destruct (use_slice_pads fl); [|exact L1]. specialize (L2 j eq_refl).
    destruct (smem (SX j) (free_indices t)); [exact L1|]. destruct (_ && _ && _); [intros _; exact L2|].
    split; auto. split; [lia|]. split; [|split; intros e z K; discriminate K].
    intros a ->. destruct pads eqn:PD.
    + destruct PADS as [P1 P2]; auto.
    + cbn [orb] in P. apply andb_true_iff in P as [P1 P2].
      destruct (filled C t E (meets_v _ _ _ M)) as [_ F]. specialize (F P1 _ D).
      pose proof (paddable_pads C t E (meets_v _ _ _ M) P2 _ D) as K. split; [exact K|]. right. split; [apply (m_one _ _ _ M)|exact F].
Qed.

(** The comprehension of the summands *)
Lemma summand_moves c acc size index C : avoids (SX index) size = true -> moves c index (fold_known c acc size C) (vec_known index size C).
Proof.
  intros A. split; unfold fold_known, vec_known, note, forget; cbn [bnd cnts dims flts].
  - intros s us [Q|I] NX.
    + apply pair_equal_spec in Q as [<- <-]. eexists. split; [left; unfold to_index; rewrite sym_eqb_refl; reflexivity|].
      intros u Hu A'. apply filter_In in Hu as [Hu B]. apply andb_true_iff in B as [B1 B2]. rewrite psub_unused by exact B1. apply filter_In. auto.
    + change (In (s, us) (bnd (forget (SV c) (forget (SV acc) C)))) in I. apply forget_In in I as (us1 & I & N1 & ->).
      apply forget_In in I as (us0 & I & N2 & ->). exists (filter (avoids (SX index)) us0). split.
      * right. apply in_map_iff. exists (s, us0). cbn [fst snd]. split.
        -- unfold to_index. apply sym_eqb_neq in N1. rewrite N1. reflexivity.
        -- apply filter_In. split; auto. cbn [fst]. apply negb_true_iff, sym_eqb_neq. auto.
      * intros u Hu A'. apply filter_In in Hu as [Hu B1]. apply filter_In in Hu as [Hu B2]. rewrite psub_unused by exact B1. apply filter_In. auto.
  - intros x Hx. apply others_In in Hx as [Hx _]. apply others_In in Hx as [Hx _]. apply filter_In. split; auto.
  - intros x Hx. apply others_In in Hx as [Hx _]. apply others_In in Hx as [Hx _]. apply filter_In. split; auto.
  - intros x Hx. apply others_In in Hx as [Hx _]. apply others_In in Hx as [Hx _]. apply filter_In. split; auto.
  - repeat split; intros Hx; apply others_In in Hx as [_ Hx]; auto.
Qed.

Lemma vec_defined E i size body v z K : den E size = Ok v -> val_int v = Ok z -> (1 <= z)%Z ->
  (forall k, k < Z.to_nat z -> exists s, den (upd E (SX i) (vnat k)) body = Ok (vscalar s) /\ skind s = K) ->
  exists w, den E (PVec i size body) = Ok w.
Proof.
  intros D V P H. cbn [den]. rewrite D. cbn [bind]. rewrite V. cbn [bind].
  destruct (H 0 ltac:(lia)) as (s0 & D0 & K0). change (vint 0) with (vnat 0). rewrite D0. cbn [bind].
  assert (M : exists vs, mapM (fun k => den (upd E (SX i) (vnat k)) body) (seq 0 (Z.to_nat z)) = Ok vs /\ Forall (fun w => vlike (vscalar s0) w = true) vs).
  { assert (Q : forall k, In k (seq 0 (Z.to_nat z)) -> k < Z.to_nat z) by (intros k Hk; apply in_seq in Hk; lia).
    revert Q. generalize (seq 0 (Z.to_nat z)). induction l as [|k l IH]; intros Q; [exists []; auto|].
    destruct (H k (Q k ltac:(left; auto))) as (s & Ds & Ks). destruct IH as (vs & M & F); [intros k' Hk'; apply Q; right; auto|].
    exists (vscalar s :: vs). cbn [mapM]. rewrite Ds. cbn [bind]. rewrite M. split; auto. constructor; auto.
    cbn. unfold arr_like. cbn. rewrite K0, Ks. destruct K; reflexivity. }
  destruct M as (vs & M & F). rewrite M. cbn [bind]. apply vstack_defined. exact F.
Qed.

Lemma mapM_at {A B} (g : A -> res B) l ys x : mapM g l = Ok ys -> In x l -> exists y, g x = Ok y.
Proof.
  revert ys. induction l as [|a l IH]; intros ys H []; cbn [mapM] in H; apply bind_ok in H as (y & Hy & H); apply bind_ok in H as (zs & Hz & H).
  - subst. eauto.
  - eauto.
Qed.
Lemma acc_wf E c acc init body k : forall w, consts_wf init -> consts_wf body -> env_wf E -> acc_val E c acc init body k = Ok w -> val_wf w.
Proof.
  induction k as [|k IH]; intros w WI WB WE H.
  - unfold acc_val in H. apply bind_ok in H as (v0 & H0 & H). cbn in H. injection H as <-. exact (den_wf _ _ _ WI WE H0).
  - apply MomentFacts.acc_val_S in H as (u & Hu & H). eapply (den_wf body); [exact WB| |exact H]. apply env_wf_upd; [apply env_wf_upd; eauto|apply ascalar_wf].
Qed.

Hypothesis EIN : use_einsum fl = false.

Lemma close_safe f : forall C N E e v, meets C N E -> close C e = true -> env_wf E -> consts_wf e -> den E e = Ok v ->
  safe fl orc padk pade f N E e.
Proof.
  induction f as [|f IH]; intros C N E e v M Q WE WC D; [exact I|].
  assert (IHm : forall N E e, env_wf E -> consts_wf e -> (exists C, meets C N E /\ close C e = true) -> (exists v, den E e = Ok v) -> safe fl orc padk pade f N E e).
  { intros N0 E0 e0 W0 W1 (C0 & M0 & Q0) (v0 & D0). eapply IH; eauto. }
  destruct e; cbn [close] in Q; cbn [safe]; try discriminate; auto;
    repeat match goal with Q : _ && _ = true |- _ => apply andb_true_iff in Q as [Q ?] end;
    cbn [consts_wf] in WC; rewrite ?all_and_Forall in WC; repeat match goal with W : _ /\ _ |- _ => destruct W end.
  - cbn [den] in D. apply bind_ok in D as (u & Du & D). split; [eapply IH; eauto|].
    intros w Dw. rewrite Du in Dw. injection Dw as <-. eapply IH; [apply forget_meets; exact M|eassumption|apply env_wf_upd; eauto using den_wf|eassumption|exact D].
  - cbn [den] in D. apply bind_ok in D as (vs & _ & D). apply bind_ok in D as (zs & _ & D). apply bind_ok in D as (x & _ & D). eapply IH; eauto.
  - cbn [den] in D. apply bind_ok in D as (u & Du & D). eapply IH; eauto.
  - cbn [den] in D. apply bind_ok in D as (u & Du & D). apply bind_ok in D as (w & Dw & D).
    destruct e2; try discriminate. split; [eapply IH; eauto|]. split; [destruct f; exact I|].
    cbn [den] in Dw. destruct (E s) as [vs|] eqn:HE; [|discriminate]. eapply close_get; eauto.
  - cbn [den] in D. apply bind_ok in D as (u & Du & D). apply bind_ok in D as (w & Dw & D). split; eapply IH; eauto.
  - cbn [den] in D. apply bind_ok in D as (u & Du & D). eapply IH; eauto.
  - cbn [den] in D. apply bind_ok in D as (u & Du & D). eapply IH; eauto.
  - cbn [den] in D. apply bind_ok in D as (u & Du & D). apply bind_ok in D as (z & Dz & D). apply bind_ok in D as (v0 & D0 & D).
    apply bind_ok in D as (vs & Dv & D). split; [eapply IH; eauto|]. intros u' z' Du' Dz'. rewrite Du in Du'. injection Du' as <-. rewrite Dz in Dz'. injection Dz' as <-.
    destruct (filled C e1 E (meets_v _ _ _ M)) as [P _]. specialize (P ltac:(assumption) _ _ Du Dz). split; [lia|].
    intros k Hk. assert (Hk' : k < Z.to_nat z) by lia.
    assert (X : exists w, den (upd E (SX i) (vnat k)) e2 = Ok w).
    { apply (mapM_at (fun k => den (upd E (SX i) (vnat k)) e2) _ _ k Dv). apply in_seq. lia. }
    destruct X as (w & Dw). eapply IH; [exact (vec_meets C N E i e1 u z k M Du Dz P Hk')|eassumption|apply env_wf_upd; [exact WE|apply ascalar_wf]|eassumption|exact Dw].
  - pose proof D as DF. cbn [den] in D. apply bind_ok in D as (u & Du & D). apply bind_ok in D as (z & Dz & D). apply bind_ok in D as (v0 & D0 & D).
    pose proof (fold_acc _ _ _ _ _ _ _ _ _ DF Du Dz) as DA.
    destruct (filled C e1 E (meets_v _ _ _ M)) as [P _]. specialize (P ltac:(assumption) _ _ Du Dz).
    split; [eapply IH; eauto|]. split; [eapply IH; eauto|]. split; [|split].
    + intros u' z' k w Du' Dz' Hk Hw. rewrite Du in Du'. injection Du' as <-. rewrite Dz in Dz'. injection Dz' as <-.
      destruct (acc_val_le _ _ _ _ _ _ (S k) _ DA ltac:(lia)) as (w' & Dw). rewrite (acc_val_step _ _ _ _ _ _ _ Hw) in Dw.
      eapply IH; [exact (fold_meets C N E c acc e1 u z k w M Du Dz Hk)|eassumption| |eassumption|exact Dw].
      apply env_wf_upd; [apply env_wf_upd; [exact WE|]|apply ascalar_wf]. eapply (acc_wf E c acc e2 e3 k); eassumption.
    + intros RED index elem r MB FI.
      match goal with K : summand _ _ _ = true |- _ => unfold summand in K; rewrite MB in K; apply andb_true_iff in K as [K NE];
        apply andb_true_iff in K as [AE NB] end.
      apply negb_true_iff in NE. apply Nat.eqb_neq in NE. apply negb_true_iff, smem_not_In in NB.
      assert (AF : avoids (SX index) (PFold c e1 acc e2 e3) = true) by (apply avoids_spec; rewrite in_app_iff in FI; tauto).
      assert (A1 : avoids (SX index) e1 = true) by (eapply avoids_kid; [exact AF|simpl; auto]).
      assert (A3 : avoids (SX index) e3 = true) by (eapply avoids_kid; [exact AF|simpl; auto]).
      assert (EL : avoids (SX index) elem = true /\ close (fold_known c acc e1 C) elem = true /\ consts_wf elem).
      { match goal with K : close (fold_known _ _ _ _) _ = true |- _ => rename K into CB end.
        pose proof MB as MB'. apply reduction_elem in MB' as (a & b & -> & [(_ & ->)|(_ & ->)]); cbn [close] in CB; apply andb_true_iff in CB as [CB1 CB2];
          (split; [eapply avoids_kid; [exact A3|simpl; auto]|]); (split; [assumption|]);
          match goal with W : consts_wf (PBin _ _ _) |- _ => apply W end. }
      destruct EL as (A4 & C4 & W4).
      assert (VD : exists w, den E (PVec index e1 (substitute elem [(SV c, p_at index)])) = Ok w).
      { edestruct loop_elems as (K & HK); [exact MB|exact AE|exact NE| | |exact WE|exact DA|]; [assumption..|].
        eapply vec_defined; [exact Du|exact Dz|exact P|]. intros k Hk. destruct (HK k Hk) as (s & Ds & Ks). exists s. split; [|exact Ks].
        rewrite substitute_psub by (intros s' [<-|[]]; exact NB). apply den_at; auto. }
      split; [|split; [exact VD|]].
      * apply IHm; [exact WE| | |exact VD].
        -- cbn [consts_wf]. split; [assumption|]. rewrite substitute_psub by (intros s' [<-|[]]; exact NB). apply consts_wf_sub; [apply sb_atomic|exact W4].
        -- exists C. split; [exact M|]. cbn [close]. rewrite Q. rewrite substitute_psub by (intros s' [<-|[]]; exact NB).
           match goal with K : positive _ _ = true |- _ => rewrite K end. cbn [andb].
           eapply close_moves; [apply summand_moves; exact A1|exact NB|exact A4|exact C4].
      * intros u' z' _ Du' Dz'. rewrite Du in Du'. injection Du' as <-. rewrite Dz in Dz'. injection Dz' as <-. exact P.
    + intros K. rewrite EIN in K. discriminate.
  - cbn [den] in D. apply bind_ok in D as (u & Du & D). eapply IH; eauto.
  - cbn [den] in D. apply bind_ok in D as (u & Du & D). apply bind_ok in D as (w & Dw & D). split; eapply IH; eauto.
  - cbn [den] in D. apply bind_ok in D as (u & Du & D). apply bind_ok in D as (w & Dw & D). apply bind_ok in D as (x & Dx & D). split; [|split]; eapply IH; eauto.
  - cbn [den] in D. apply bind_ok in D as (u & Du & D). apply bind_ok in D as (w & Dw & D). split; eapply IH; eauto.
Qed.
End Close.
