(** Reductions of an axis: phi_to_yarr.py:381-428. *)
From Verif Require Import Base Scalar Tensor Types Sym Phi Den Term PhiTerm DenFree SpecPhi Lining LiningFacts TypesFacts Typing DenWf Naive
  Sizes ClipShift NdOps NdFacts Yarr YWf Axial AxialFacts AxialOps Codegen IndexOps YOps CodegenSafe CodegenGet CodegenCtx CodegenCases
  Subst CodegenSub CodegenAxes CodegenCorrect.

Section RedOps.
Context {FO : FloatOps} {EX : Externs} {PO : PadOps}.

(** The operation of a reduction, on floats. *)
Definition fop (r : rop) : F -> F -> F := match r with RAdd => fadd | RMin => fmin | RMax => fmax end.
Lemma sem_rop r a b : sem_bin (rop_bop r) (SF a) (SF b) = Some (SF (fop r a b)).
Proof. destruct r; reflexivity. Qed.
Lemma fop_assoc (L : float_laws) r a b c : fop r a (fop r b c) = fop r (fop r a b) c.
Proof. destruct r; [apply (Radd_assoc (f_ring L))|apply (f_min_assoc L)|apply (f_max_assoc L)]. Qed.
Lemma fop_comm (L : float_laws) r a b : fop r a b = fop r b a.
Proof. destruct r; [apply (Radd_comm (f_ring L))|apply (f_min_comm L)|apply (f_max_comm L)]. Qed.

Definition fred (r : rop) (n : nat) (h : nat -> F) : F :=
  match n with
  | 0 => f_of_Z 0
  | S m => fold_left (fun s j => fop r s (h j)) (seq 1 m) (h 0)
  end.
Lemma fold_fop (L : float_laws) r (h : nat -> F) l : forall a b,
  fold_left (fun s j => fop r s (h j)) l (fop r a b) = fop r a (fold_left (fun s j => fop r s (h j)) l b).
Proof. induction l as [|j l IH]; intros a b; simpl; auto. rewrite <- (fop_assoc L), IH. reflexivity. Qed.
Lemma fred_init (L : float_laws) r n h w : (r <> RAdd -> 1 <= n) ->
  fop r w (fred r n h) = fold_left (fun s j => fop r s (h j)) (seq 0 n) w.
Proof.
  intros H. destruct n as [|n].
  - simpl. destruct r; [|exfalso; assert (1 <= 0) by (apply H; discriminate); lia..]. simpl.
    rewrite (Radd_comm (f_ring L)). apply (Radd_0_l (f_ring L)).
  - cbn [fred]. rewrite <- (fold_fop L). reflexivity.
Qed.

Lemma fold_sbin r (g : nat -> scalar) h l : (forall j, In j l -> g j = SF (h j)) -> forall a,
  fold_left (fun s j => sbin (rop_bop r) KFloat s (g j)) l (SF a) = SF (fold_left (fun s j => fop r s (h j)) l a).
Proof.
  induction l as [|j l IH]; intros H a; simpl; auto. unfold sbin at 2. rewrite (H j) by (left; auto). rewrite sem_rop.
  apply IH. intros; apply H; right; auto.
Qed.

Lemma frep_reduce N I ax n b A r (h : asg -> nat -> F) :
  frep N I all_axes ax [n] KFloat b A -> (r <> RAdd -> 1 <= n) ->
  (forall s j, wv N I s -> j < n -> get (A s) [j] = SF (h s j)) ->
  exists b', nd_reduce r (length ax) b = Ok b' /\
    frep N I all_axes ax [] KFloat b' (fun s => ascalar (SF (fred r n (h s)))).
Proof.
  intros FR Hr HA. pose proof FR as [W K SH M GET].
  assert (RK : arank b = length ax + 1) by (rewrite (frep_rank _ _ _ _ _ _ _ _ FR); reflexivity).
  assert (NN : nth (length ax) (ashape b) 0 = n).
  { rewrite SH. rewrite app_nth2; rewrite map_length; [rewrite Nat.sub_diag; reflexivity|lia]. }
  assert (DL : del_nth (length ax) (ashape b) = map (fun i => if all_axes i then N i else 1) ax ++ []).
  { rewrite SH. unfold del_nth. rewrite firstn_app, skipn_app, map_length. rewrite Nat.sub_diag.
    replace (S (length ax) - length ax) with 1 by lia. rewrite (skipn_all2 (n := S (length ax)) (map _ ax)) by (rewrite map_length; lia).
    rewrite firstn_all2 by (rewrite map_length; lia). cbn [firstn skipn]. rewrite app_nil_r. reflexivity. }
  assert (OK : exists b', nd_reduce r (length ax) b = Ok b').
  { unfold nd_reduce. replace (length ax <? arank b) with true by (symmetry; apply Nat.ltb_lt; lia).
    cbn [guard bind]. rewrite K. replace (kind_bin (rop_bop r) KFloat KFloat) with (Some KFloat) by (destruct r; reflexivity).
    cbn [of_opt bind]. rewrite NN.
    replace ((0 <? n) || match r with RAdd => true | _ => false end) with true; [eexists; reflexivity|].
    destruct r; [rewrite orb_true_r; auto| |]; (assert (1 <= n) by (apply Hr; discriminate)); (replace (0 <? n) with true by (symmetry; apply Nat.ltb_lt; lia)); auto. }
  destruct OK as (b' & HB). exists b'. split; auto.
  assert (WB := nd_reduce_wf r _ _ _ W HB). unfold nd_reduce in HB. apply bind_ok in HB as (u & _ & HB).
  rewrite K in HB. replace (kind_bin (rop_bop r) KFloat KFloat) with (Some KFloat) in HB by (destruct r; reflexivity).
  cbn [of_opt bind] in HB. rewrite NN, DL in HB. apply bind_ok in HB as (u' & _ & HB). injection HB as HB.
  constructor.
  - auto.
  - rewrite <- HB. reflexivity.
  - rewrite <- HB. reflexivity.
  - intros s Hs. split; [apply ascalar_wf|split; reflexivity].
  - intros s Hs HI p Hp. inversion Hp; subst p.
    rewrite <- HB. rewrite get_tab.
    2:{ rewrite !app_nil_r. exact (inb_assign N all_axes ax s HI). }
    rewrite app_nil_r.
    assert (G : forall j, j < n -> get b (ins_nth (length ax) j (map (fun i => if all_axes i then s i else 0) ax)) = SF (h s j)).
    { intros j Hj. unfold ins_nth. rewrite firstn_all2, skipn_all2 by (rewrite map_length; lia).
      rewrite GET; auto. apply inb_cons. split; auto. }
    change (get (ascalar (SF (fred r n (h s)))) []) with (SF (fred r n (h s))).
    unfold fred. destruct n as [|n]; [reflexivity|]. rewrite (G 0) by lia.
    apply fold_sbin. intros j Hj. apply in_seq in Hj. apply G. lia.
Qed.

Lemma yok_reduce X r o ax y a b : yok X r y [a] -> nd_reduce o ax a = Ok b -> akind b = akind a ->
  yok X r (YReduceAxis o ax y) [b].
Proof.
  intros [HE HT] H K. pose proof H as H0. unfold nd_reduce in H. apply bind_ok in H as (u & HU & H).
  apply bind_ok in H as (k & _ & H). apply bind_ok in H as (u' & _ & H). injection H as H.
  apply guard_ok in HU. split.
  - intros r' Hr. cbn [yeval]. rewrite (HE r' Hr), pack_one. cbn [bind ya]. rewrite H0. reflexivity.
  - cbn [ytyp]. rewrite HT. cbn [map bind single]. unfold aty at 1. cbn [fst snd].
    change (length (ashape a)) with (arank a). rewrite HU. cbn [guard bind]. unfold aty. rewrite <- K.
    replace (length (ashape b)) with (arank a - 1); auto. rewrite <- H. simpl. unfold del_nth. rewrite app_length, firstn_length, skipn_length.
    apply Nat.ltb_lt in HU. unfold arank in *. lia.
Qed.

(** The float a term denotes. *)
Definition fof (v : val) : F := match val_scalar v with Ok (SF f) => f | _ => f_of_Z 0 end.
Lemma fof_scalar f : fof (VArr (ascalar (SF f))) = f.
Proof. unfold fof, val_scalar. cbn [as_arr bind]. rewrite as_scalar_ascalar. reflexivity. Qed.
Lemma typed_float v : has_type v (TScalar KFloat) -> v = VArr (ascalar (SF (fof v))).
Proof. intros H. apply typed_scalar in H as (s & -> & K). destruct s; try discriminate. rewrite fof_scalar. reflexivity. Qed.

Lemma vec_floats E i size b z v :
  den E size = Ok (VArr (ascalar (SI z))) -> den E (PVec i size b) = Ok v ->
  (forall k w, den (upd E (SX i) (vnat k)) b = Ok w -> has_type w (TScalar KFloat)) ->
  (forall k, k < Nat.max 1 (Z.to_nat z) -> den (upd E (SX i) (vnat k)) b = Ok (VArr (ascalar (SF (fof (dval (upd E (SX i) (vnat k)) b)))))) /\
  exists a, v = VArr a /\ ashape a = [Z.to_nat z] /\
    forall j, j < Z.to_nat z -> get a [j] = SF (fof (dval (upd E (SX i) (vnat j)) b)).
Proof.
  intros DS D T. cbn [den] in D. rewrite DS in D. cbn [bind] in D. change (val_int (VArr (ascalar (SI z)))) with (Ok z) in D.
  cbn [bind] in D. apply bind_ok in D as (v0 & D0 & D). apply bind_ok in D as (vs & D1 & D). change (vint 0) with (vnat 0) in D0.
  set (n := Z.to_nat z) in *.
  assert (P : forall k w, den (upd E (SX i) (vnat k)) b = Ok w -> w = VArr (ascalar (SF (fof (dval (upd E (SX i) (vnat k)) b))))).
  { intros k w Hk. rewrite (dval_ok _ _ _ Hk). apply typed_float. eauto. }
  assert (L : forall k, k < n -> nth_error vs k = Some (VArr (ascalar (SF (fof (dval (upd E (SX i) (vnat k)) b)))))).
  { intros k Hk. apply mapM_Forall2 in D1. 
    pose proof (Forall2_nth _ _ _ k 0 v0 D1 ltac:(rewrite seq_length; auto)) as Q. cbv beta in Q. rewrite seq_nth in Q by auto.
    simpl in Q. rewrite <- (P _ _ Q). apply nth_error_nth'. apply Forall2_len in D1. rewrite seq_length in D1. lia. }
  assert (LN : length vs = n) by (apply mapM_length in D1; rewrite seq_length in D1; auto).
  split.
  - intros k Hk. destruct k as [|k]; [rewrite D0; f_equal; apply P; auto|].
    assert (Q : S k < n) by lia. apply mapM_Forall2 in D1.
    pose proof (Forall2_nth _ _ _ (S k) 0 v0 D1 ltac:(rewrite seq_length; auto)) as Q1. cbv beta in Q1. rewrite seq_nth in Q1 by auto.
    simpl in Q1. simpl. rewrite Q1. f_equal. apply P. auto.
  - pose proof (P 0 v0 D0) as ->. cbn [vstack] in D. apply bind_ok in D as (l & Hl & D). apply bind_ok in D as (u & _ & D).
    injection D as <-. apply mapM_as_arr in Hl. subst vs. rewrite map_length in LN.
    eexists. split; [reflexivity|]. split; [unfold astack; simpl; congruence|].
    intros j Hj. specialize (L j Hj). rewrite nth_error_map in L. destruct (nth_error l j) as [a|] eqn:Q; [|discriminate].
    injection L as ->. unfold astack. rewrite get_tab by (rewrite LN; apply inb_cons; split; [auto|constructor]).
    rewrite (nth_error_nth _ _ _ Q). reflexivity.
Qed.
End RedOps.

Lemma unused {FO : FloatOps} idxs vax (e : phi) i : ~ In i (used_indices idxs vax e) ->
  ~ In i (map fst idxs) /\ ~ In (SX i) (fsyms e ++ bsyms e) /\ ~ In i (flat_map snd vax).
Proof.
  intros N. split; [|split]; intros K; apply N; unfold used_indices; rewrite !in_app_iff.
  - auto.
  - right; right. unfold idx_nums. apply in_flat_map. exists (SX i). split; auto. left; auto.
  - auto.
Qed.
Lemma fresh_unused {FO : FloatOps} idxs vax (e : phi) i : fresh_index idxs vax e <= i -> ~ In i (used_indices idxs vax e).
Proof.
  unfold fresh_index. set (l := used_indices idxs vax e). intros H K.
  pose proof (proj1 (list_max_le l (list_max l)) (le_n _)) as Q. rewrite Forall_forall in Q. specialize (Q i K). lia.
Qed.
Lemma new_unused {FO : FloatOps} orc idxs vax (e : phi) : ~ In (new_index orc idxs vax e) (used_indices idxs vax e).
Proof.
  unfold new_index. destruct (mem _ _) eqn:M; [apply fresh_unused; auto|].
  intros K. apply mem_In in K. congruence.
Qed.
Lemma fresh_from {FO : FloatOps} idxs vax (e : phi) i : fresh_index idxs vax e <= i ->
  ~ In i (map fst idxs) /\ ~ In (SX i) (fsyms e ++ bsyms e) /\ ~ In i (flat_map snd vax).
Proof. intros H. apply unused, fresh_unused, H. Qed.
Lemma new_from {FO : FloatOps} orc idxs vax (e : phi) : let i := new_index orc idxs vax e in
  ~ In i (map fst idxs) /\ ~ In (SX i) (fsyms e ++ bsyms e) /\ ~ In i (flat_map snd vax).
Proof. apply unused, new_unused. Qed.

Lemma assoc_keys {A} i (l : list (nat * A)) a : assoc i l = Some a -> In i (map fst l).
Proof.
  induction l as [|[k b] l IH]; simpl; [discriminate|]. rewrite (Nat.eqb_sym i k). destruct (Nat.eqb_spec k i) as [->|]; auto.
Qed.

Lemma unused_ctx {FO : FloatOps} {EX : Externs} {PO : PadOps} N I X r idxs vax E G (e : phi) i :
  ctx N I X r idxs vax E G -> ~ In i (used_indices idxs vax e) -> ~ In i I.
Proof.
  intros C H K. destruct (unused idxs vax e i H) as (Q1 & _ & Q2). destruct (G (SX i)) eqn:Q.
  - destruct (c_idx _ _ _ _ _ _ _ _ C i K) as (y & Q' & _); [congruence|]. apply assoc_keys in Q'. auto.
  - destruct (c_batch _ _ _ _ _ _ _ _ C i K Q). auto.
Qed.
Lemma fresh_ctx {FO : FloatOps} {EX : Externs} {PO : PadOps} N I X r idxs vax E G (e : phi) i :
  ctx N I X r idxs vax E G -> fresh_index idxs vax e <= i -> ~ In i I.
Proof. intros C H. exact (unused_ctx _ _ _ _ _ _ _ _ e i C (fresh_unused _ _ _ _ H)). Qed.

Lemma trim_nil used : trim [] used = [].
Proof. induction used; simpl; auto. Qed.
Lemma trim_self ax : trim ax ax = ax.
Proof. destruct ax as [|x ax]; auto. cbn [trim]. unfold mem. cbn [existsb]. rewrite Nat.eqb_refl. reflexivity. Qed.

Section Red.
Context {FO : FloatOps} {EX : Externs} {PO : PadOps}.
Variable fl : flags.
Variable orc : oracle.
Variable padk : kind -> bool.
Variable pade : bool.
Notation goodt := (good fl orc padk pade).
Hypothesis LAWS : float_laws.
Hypothesis STR : strict fl = true.
Hypothesis RED : use_reductions fl = true.
Variable rec : idx_sizes -> var_axes -> phi -> res axial.
Hypothesis REC : rec_spec fl orc padk pade rec.
Variables (N : nat -> nat) (I X : list nat) (r : yenv) (idxs : idx_sizes) (vax : var_axes) (E : asg -> env) (G : tctx).
Hypothesis C : ctx N I X r idxs vax E G.
Notation good := (goodt G N I X E).
Notation result_ok := (result_ok N I X r E).

Variables (c : nat) (size : phi) (acc : nat) (init body elem : phi) (o : rop) (index : nat).
Notation e := (PFold c size acc init body).
Notation sb := [(SV c, p_at index)].
Notation vec := (PVec index size (substitute elem sb)).
Hypothesis GE : good e.
Hypothesis M : match_reduction_by_body body acc = Some (elem, o).
Hypothesis NA : ~ In (SV acc) (fsyms elem).
Hypothesis FI : ~ In index I.
Hypothesis FE : ~ In (SX index) (fsyms e ++ bsyms e).

Lemma red_elem_syms s : In s (fsyms elem) \/ In s (bsyms elem) -> s <> SV acc /\ s <> SX index.
Proof.
  intros H. destruct GE as [_ _ _ _ FB _ _]. simpl in FB. destruct FB as (_ & _ & _ & _ & _ & FB).
  assert (H2 : In s (fsyms body) \/ In s (bsyms body)).
  { apply reduction_elem in M as (a & b & -> & [(_ & ->)|(_ & ->)]); simpl; rewrite !in_app_iff; tauto. }
  split; intros ->.
  - destruct H as [H|H]; [auto|]. assert (K : In (SV acc) (bsyms body)).
    { apply reduction_elem in M as (a & b & -> & [(_ & ->)|(_ & ->)]); simpl; rewrite !in_app_iff; tauto. }
    revert K. eapply fresh_not_bound; [exact FB|]. simpl; auto.
  - assert (Q : In (SX index) (fsyms e) \/ In (SX index) (bsyms e)).
    { apply (syms_child e body); auto. simpl; auto. }
    apply FE, in_or_app. auto.
Qed.
Lemma red_elem_c : ~ In (SV c) (bsyms elem).
Proof.
  destruct GE as [_ _ _ _ FB _ _]. simpl in FB. destruct FB as (_ & _ & _ & _ & _ & FB). intros H.
  assert (K : In (SV c) (bsyms body)).
  { apply reduction_elem in M as (a & b & -> & [(_ & ->)|(_ & ->)]); simpl; rewrite !in_app_iff; tauto. }
  revert K. eapply fresh_not_bound; [exact FB|]. simpl; auto.
Qed.
Lemma red_psub : substitute elem sb = psub sb elem.
Proof. apply substitute_psub. intros s [<-|[]]. apply red_elem_c. Qed.

Lemma red_at s u : In (s, u) sb -> exists c i, s = SV c /\ u = p_at i.
Proof. intros [K|[]]. injection K as <- <-. eauto. Qed.

Lemma red_index_new : G (SX index) = None.
Proof.
  destruct (G (SX index)) eqn:Q; auto. exfalso. apply FI. apply (in_scope_x X). apply (c_dom _ _ _ _ _ _ _ _ C).
  rewrite Q. discriminate.
Qed.

Lemma good_red_vec t : typ vec = Ok t -> typ init = Ok (TScalar KFloat) ->
  good vec /\ typ elem = Ok (TScalar KFloat) /\ typ (substitute elem sb) = Ok (TScalar KFloat) /\
  scoped (upd G (SX index) (TScalar KInt)) (substitute elem sb) /\ exts_ok (substitute elem sb).
Proof.
  intros T TI.
  destruct (good_fold_parts _ _ _ _ _ _ _ _ _ _ _ _ _ _ GE) as (Gs & Ts & Gi & t0 & Ti & Tb & _).
  rewrite TI in Ti. injection Ti as <-.
  pose proof GE as [_ HSC HINT HEXT HFB HSAFE HDEN].
  simpl in HSC, HINT, HEXT, HFB. destruct HSC as (SS & _ & t' & Ti' & S2). rewrite TI in Ti'. injection Ti' as <-.
  destruct HINT as (IS & _ & I2), HEXT as (XS & _ & X2), HFB as (NC & NAS & CA & FS & _ & FB).
  assert (EL : typ elem = Ok (TScalar KFloat) /\ scoped (upd (upd G (SV acc) (TScalar KFloat)) (SV c) (TScalar KInt)) elem /\
    int_indices elem /\ exts_ok elem /\ fresh_binders (SV c :: SV acc :: in_scope X I) elem).
  { pose proof M as M'. apply reduction_elem in M' as (a & b & QB & K). subst body.
    simpl in S2, I2, X2, FB. destruct S2, I2, X2, FB.
    cbn [typ] in Tb. apply bind_ok in Tb as (ta & Ta & Tb). apply bind_ok in Tb as (tb & Tb' & Tb).
    apply resolve_bin_inv in Tb as (k1 & k2 & k' & -> & -> & Q & Kk). injection Q as <-.
    assert (k1 = KFloat /\ k2 = KFloat) as [-> ->] by (destruct o, k1, k2; try discriminate Kk; auto).
    destruct K as [(_ & ->)|(_ & ->)]; auto. }
  destruct EL as (TE & SE & IE & XE & FBE).
  assert (SE' : scoped (upd G (SV c) (TScalar KInt)) elem).
  { eapply scoped_mono; [exact SE|]. intros s u Hs. destruct (red_elem_syms s Hs) as [Q _].
    destruct (sym_eq_dec s (SV c)) as [->|]; [rewrite !upd_eq; auto|]. rewrite !upd_neq by auto. auto. }
  cbn [typ] in T. apply bind_ok in T as (ts & T1 & T). apply bind_ok in T as (tv & T2 & T).
  assert (ST : static sb (upd G (SV c) (TScalar KInt)) (upd G (SX index) (TScalar KInt)) elem tv).
  { apply sub_static.
    - exact red_at.
    - intros s u Hs. unfold sassoc. cbn [find fst snd]. destruct (sym_eq_dec s (SV c)) as [->|NE].
      + rewrite upd_eq in Hs. injection Hs as <-. rewrite sym_eqb_refl. split; auto. exists index. rewrite upd_eq. auto.
      + rewrite upd_neq in Hs by auto. rewrite (proj2 (sym_eqb_neq _ _)) by auto.
        rewrite upd_neq; auto. intros ->. rewrite red_index_new in Hs. discriminate.
    - intros s Hs. split.
      + intros [<-|[]]. apply red_elem_c; auto.
      + intros r0 i [K|[]]. injection K as _ <-. apply (red_elem_syms s); auto.
    - exact SE'.
    - rewrite <- red_psub. auto. }
  destruct ST as (TE' & SV' & IV & XV). rewrite TE in TE'. injection TE' as <-.
  rewrite <- red_psub in *. split; [|auto].
  constructor.
  - exists t. cbn [typ]. rewrite T1, T2. cbn [bind]. auto.
  - simpl. auto.
  - simpl. auto.
  - simpl. auto.
  - simpl. split; [intros K; apply in_scope_x in K; auto|]. split; auto. rewrite red_psub. apply psub_fresh; [apply at_atomic, red_at|].
    eapply fresh_binders_add; [exact FBE|]. intros s [<-|Hs]; [|left; right; right; auto].
    right. intros K. destruct (red_elem_syms (SX index)) as [_ Q]; auto.
  - intros s Hs f. destruct (HSAFE s Hs (S f)) as (_ & _ & _ & Q & _). apply (Q RED index elem o M FE).
  - intros s Hs. destruct (HSAFE s Hs 1) as (_ & _ & _ & Q & _). destruct (Q RED index elem o M FE) as (_ & (v & D) & _). eauto.
Qed.

(** The fold is the initial value combined with the reduced axis. *)
Lemma red_value t s z w0 : typ vec = Ok t -> typ init = Ok (TScalar KFloat) -> wv N I s ->
  den (E s) size = Ok (VArr (ascalar (SI z))) -> den (E s) init = Ok (VArr (ascalar (SF w0))) ->
  let h := fun j => fof (dval (upd (E s) (SX index) (vnat j)) (substitute elem sb)) in
  let n := Z.to_nat z in
  (exists a, dval (E s) vec = VArr a /\ ashape a = [n] /\ forall j, j < n -> get a [j] = SF (h j)) /\
  (o <> RAdd -> 1 <= n) /\
  den (E s) e = Ok (VArr (ascalar (SF (fop o w0 (fred o n h))))).
Proof.
  intros T TI Hs DS DI h n. destruct (good_red_vec t T TI) as (GV & TE & TSE & SSE & XSE).
  destruct (g_den _ _ _ _ _ _ _ _ _ _ GV s Hs) as (v & DV).
  destruct (vec_floats (E s) index size (substitute elem sb) z v DS DV) as [HD (a & -> & SA & GA)].
  { intros k w D. pose proof (g_int _ _ _ _ _ _ _ _ _ _ GV) as IG. simpl in IG.
    pose proof (type_sound _ _ (upd (E s) (SX index) (vnat k)) _ TSE SSE (proj2 IG) XSE
      (env_typed_upd _ _ _ _ _ (c_typ _ _ _ _ _ _ _ _ C s Hs) (vint_typed (Z.of_nat k)))) as Q.
    rewrite D in Q. exact Q. }
  fold n in SA, GA, HD. split; [exists a; rewrite (dval_ok _ _ _ DV); auto|].
  assert (ON : o <> RAdd -> 1 <= n).
  { intros NO. destruct (g_safe _ _ _ _ _ _ _ _ _ _ GE s Hs 1) as (_ & _ & _ & Q & _).
    destruct (Q RED index elem o M FE) as (_ & _ & Q'). specialize (Q' _ z NO DS eq_refl). unfold n. lia. }
  split; auto.
  rewrite (fred_init LAWS) by auto.
  assert (DF : den (E s) e = acc_val (E s) c acc init body n).
  { cbn [den]. rewrite DS. cbn [bind]. change (val_int (VArr (ascalar (SI z)))) with (Ok z). reflexivity. }
  rewrite DF.
  assert (ALL : forall k, k <= n -> acc_val (E s) c acc init body k =
     Ok (VArr (ascalar (SF (fold_left (fun s j => fop o s (h j)) (seq 0 k) w0))))).
  { induction k as [|k IH]; intros Hk.
    - unfold acc_val. rewrite DI. reflexivity.
    - rewrite acc_val_S, IH by lia. cbn [bind]. rewrite seq_S, fold_left_app. cbn [fold_left].
      set (wk := fold_left _ (seq 0 k) w0). change (0 + k) with k.
      assert (DE : forall x, den (fold_env (E s) c acc k x) elem = Ok (VArr (ascalar (SF (h k))))).
      { intros x.
        assert (QQ : den (upd (E s) (SX index) (vnat k)) (substitute elem sb) = Ok (VArr (ascalar (SF (h k))))) by (apply HD; lia).
        apply (subst_many elem sb [vnat k]) in QQ.
        - rewrite <- QQ. apply den_irrel. intros q Hq. destruct (red_elem_syms q Hq) as [Q1 Q2].
          unfold upds, fold_env. cbn [combine map fold_left fst snd].
          destruct (sym_eq_dec q (SV c)) as [->|]; [rewrite !upd_eq; auto|]. rewrite !upd_neq by auto. auto.
        - constructor; [intros []|constructor].
        - cbn [map snd mapM]. unfold p_at. cbn [den]. rewrite upd_eq. reflexivity.
        - intros s0 u [K|[]]. injection K as <- <-. exact red_elem_c.
        - intros s0 u q [K|[]] Hq. injection K as <- <-. apply free_in_isfree, isfree_syms in Hq.
          destruct Hq as [[<-|[]]|[]]. intros K. destruct (red_elem_syms (SX index)) as [_ Q]; auto. }
      assert (DA : forall a0, is_store acc a0 = true -> den (fold_env (E s) c acc k (VArr (ascalar (SF wk)))) a0 = Ok (VArr (ascalar (SF wk)))).
      { intros a0 Ha. destruct a0; try discriminate. simpl in Ha. apply sym_eqb_eq in Ha. subst s0. cbn [den]. unfold fold_env.
        destruct GE as [_ _ _ _ FB _ _]. simpl in FB. destruct FB as (_ & _ & CA & _).
        rewrite upd_neq by congruence. rewrite upd_eq. reflexivity. }
      pose proof M as M'. apply reduction_elem in M' as (a1 & b1 & QB & K). rewrite QB. cbn [den].
      destruct K as [(Ha & <-)|(Hb & <-)].
      + rewrite (DA _ Ha), DE. cbn [bind]. unfold lift2, val_scalar. cbn [as_arr bind]. rewrite !as_scalar_ascalar. cbn [bind].
        rewrite sem_rop. reflexivity.
      + rewrite (DA _ Hb), DE. cbn [bind]. unfold lift2, val_scalar. cbn [as_arr bind]. rewrite !as_scalar_ascalar. cbn [bind].
        rewrite sem_rop. rewrite (fop_comm LAWS). reflexivity. }
  apply ALL. auto.
Qed.
End Red.

Section Case.
Context {FO : FloatOps} {EX : Externs} {PO : PadOps}.
Variable fl : flags.
Variable orc : oracle.
Variable padk : kind -> bool.
Variable pade : bool.
Hypothesis LAWS : float_laws.
Hypothesis STR : strict fl = true.
Hypothesis RED : use_reductions fl = true.
Variable rec : idx_sizes -> var_axes -> phi -> res axial.
Hypothesis REC : rec_spec fl orc padk pade rec.

(** 399-428 *)
Lemma case_reduction N I X r idxs vax E G c size acc init body ax :
  ctx N I X r idxs vax E G ->
  match_reduction fl orc (rec idxs vax) (new_index orc idxs vax (PFold c size acc init body)) c size acc init body = Ok (Some ax) ->
  good fl orc padk pade G N I X E (PFold c size acc init body) ->
  result_ok N I X r E (PFold c size acc init body) ax.
Proof.
  intros C H GE. set (e := PFold c size acc init body) in *. set (index := new_index orc idxs vax e) in *.
  destruct (new_from orc idxs vax e) as (FK & FE & _).
  assert (FI : ~ In index I) by (apply (unused_ctx _ _ _ _ _ _ _ _ e _ C (new_unused orc idxs vax e))).
  unfold match_reduction in H. apply bind_ok in H as (ti & TI & H).
  destruct (ty_eqb ti (TScalar KFloat)) eqn:QF; [|discriminate]. apply ty_eqb_eq in QF. subst ti.
  destruct (is_nil (free_indices init)); [|discriminate]. cbn [negb orb] in H.
  destruct (match_reduction_by_body body acc) as [[elem o]|] eqn:M; [|discriminate].
  destruct (considerate orc (psize elem) c size elem); [|discriminate]. cbn [negb] in H.
  apply bind_ok in H as (u & NA & H). apply guard_ok in NA. rewrite STR in NA. cbn [negb orb] in NA.
  assert (NA' : ~ In (SV acc) (fsyms elem)).
  { intros K. apply smem_In in K. rewrite K in NA. discriminate. }
  apply bind_ok in H as (tv & TV & H). apply bind_ok in H as (vec & HV & H). apply bind_ok in H as (p & HP & H).
  apply bind_ok in H as (i & HI & H). apply bind_ok in H as (yi & Hyi & H). apply bind_ok in H as (a & Ha & H). injection H as <-.
  apply mk_axial_inv in Ha as (-> & ND & _).
  destruct (good_red_vec fl orc padk pade RED N I X r idxs vax E G C c size acc init body elem o index GE M NA' FI FE tv TV TI)
    as (GV & TE & TSE & _ & _).
  destruct (good_fold_parts _ _ _ _ _ _ _ _ _ _ _ _ _ _ GE) as (Gs & Ts & Gi & _).
  destruct (REC _ _ _ _ _ _ _ _ _ _ HV C GV) as (l & Y & ND' & IN & V).
  pose proof (REC _ _ _ _ _ _ _ _ _ _ HI C Gi) as Ri.
  destruct (result_scalar fl orc padk pade N I X r idxs vax E G C init i KFloat Ri Gi TI) as (bi & Yi & _ & _ & Fi).
  assert (AI : ax_axes i = [] /\ yi = ax_expr i).
  { unfold normal in Hyi. destruct (ax_axes i); [|discriminate]. injection Hyi as <-. auto. }
  destruct AI as [AI ->]. rewrite AI in Fi.
  unfold positional_axis in HP. apply bind_ok in HP as (rk & Hrk & HP). apply bind_ok in HP as (u' & _ & HP). injection HP as <-.
  rewrite Nat.add_0_r.
  destruct (rank_rep _ _ _ _ _ Hrk Y) as (b & -> & _).
  destruct (vfrep_one_inv _ _ _ _ _ _ V) as (rest & k & FR & HA).
  set (A := leaf (fun s => dval (E s) (PVec index size (substitute elem [(SV c, p_at index)]))) 0) in *.
  set (h := fun s j => fof (dval (upd (E s) (SX index) (vnat j)) (substitute elem [(SV c, p_at index)]))).
  assert (VAL : forall s, wv N I s -> exists z w0, den (E s) size = Ok (VArr (ascalar (SI z))) /\
     dval (E s) init = VArr (ascalar (SF w0)) /\ ashape (A s) = [Z.to_nat z] /\
     (forall j, j < Z.to_nat z -> get (A s) [j] = SF (h s j)) /\ (o <> RAdd -> 1 <= Z.to_nat z) /\
     dval (E s) e = VArr (ascalar (SF (fop o w0 (fred o (Z.to_nat z) (h s)))))).
  { intros s Hs.
    pose proof (good_den _ _ _ _ _ _ _ _ _ _ _ Gs Hs) as DS.
    rewrite (good_zof fl orc padk pade N I X r idxs vax E G C size s Gs Ts Hs) in DS.
    pose proof (good_den _ _ _ _ _ _ _ _ _ _ _ Gi Hs) as DI.
    rewrite (typed_float _ (good_typed _ _ _ _ _ _ _ _ _ _ _ _ C init _ s Gi TI Hs)) in DI.
    destruct (red_value fl orc padk pade LAWS RED N I X r idxs vax E G C c size acc init body elem o index GE M NA' FI FE
      tv s _ _ TV TI Hs DS DI) as ((a & DA & SA & GA) & ON & DE).
    rewrite (HA s Hs) in DA. injection DA as DA. rewrite <- DA in SA, GA.
    do 2 eexists. split; [exact DS|]. split; [apply dval_ok; exact DI|]. split; [exact SA|]. split; [exact GA|]. split; [exact ON|].
    apply dval_ok. exact DE. }
  destruct (VAL _ (wv_zero N I)) as (z & _ & _ & _ & SZ & _ & ON & _). set (n := Z.to_nat z) in *.
  destruct (fr_mem _ _ _ _ _ _ _ _ FR _ (wv_zero N I)) as (_ & _ & SR). rewrite SZ in SR. subst rest.
  assert (VAL' : forall s, wv N I s ->
     (forall j, j < n -> get (A s) [j] = SF (h s j)) /\
     sem_bin (rop_bop o) (sof (dval (E s) init)) (SF (fred o n (h s))) = Some (sof (dval (E s) e)) /\
     dval (E s) e = VArr (ascalar (sof (dval (E s) e)))).
  { intros s Hs. destruct (VAL s Hs) as (z' & w0 & _ & DI & SA & GA & _ & DE).
    destruct (fr_mem _ _ _ _ _ _ _ _ FR s Hs) as (_ & _ & SR). rewrite SA in SR. injection SR as SR. rewrite SR in *.
    split; auto. rewrite DI, DE. unfold sof, val_scalar. cbn [as_arr bind]. rewrite !as_scalar_ascalar.
    split; auto. apply sem_rop. }
  assert (KF : k = KFloat).
  { destruct (good_typed _ _ _ _ _ _ _ _ _ _ _ _ C _ tv _ GV TV (wv_zero N I)) as [W TT].
    cbn [typ] in TV. apply bind_ok in TV as (t1 & _ & TV). rewrite TSE in TV. cbn [bind] in TV.
    destruct (fr_mem _ _ _ _ _ _ _ _ FR _ (wv_zero N I)) as (_ & <- & SR).
    rewrite (HA _ (wv_zero N I)) in TT. cbn [vtype] in TT. rewrite SR in TT.
    repeat (apply bind_ok in TV as (? & _ & TV)). destruct t1 as [k1| |]; try discriminate TV.
    repeat (apply bind_ok in TV as (? & _ & TV)). injection TV as <-. simpl in TT. injection TT as TT. auto. }
  subst k.
  destruct (frep_reduce N I (ax_axes vec) n b A o h FR ON (fun s j Hs Hj => proj1 (VAL' s Hs) j Hj)) as (b' & HB & FB).
  assert (Yr : yok X r (YReduceAxis o (length (ax_axes vec)) (ax_expr vec)) [b']).
  { eapply yok_reduce; eauto. rewrite (fr_kind _ _ _ _ _ _ _ _ FR), (fr_kind _ _ _ _ _ _ _ _ FB). auto. }
  set (ops := [mkOperand [] KFloat bi (fun s => ascalar (sof (dval (E s) init)));
               mkOperand (ax_axes vec) KFloat b' (fun s => ascalar (SF (fred o n (h s))))]).
  destruct (ew_ok N I (kf2 (kind_bin (rop_bop o))) (sf2 (sem_bin (rop_bop o))) (ax_axes vec) ops KFloat (fun s => sof (dval (E s) e)) ND' IN)
    as (d & EW & LD & FD).
  - intros x. simpl. split; [intros Hx; eexists; split; [right; left; reflexivity|auto]|].
    intros (q & [<-|[<-|[]]] & Hx); [destruct Hx|auto].
  - constructor; [|constructor; [|constructor]]; unfold operand_ok; cbn [o_ax o_kind o_arr o_fam].
    + rewrite trim_nil. eapply frep_ext; [| |exact Fi]; [intros ? []|auto].
    + rewrite trim_self. eapply frep_ext; [| |exact FB]; auto. intros x Hx. symmetry. apply mem_In. auto.
  - simpl. destruct o; reflexivity.
  - intros ss s. destruct ss as [|u0 [|v0 [|? ?]]]; simpl; try discriminate. intros Q.
    pose proof (sem_bin_kind (rop_bop o) u0 v0) as Q'. rewrite Q in Q'. symmetry. exact Q'.
  - intros s Hs. simpl. apply (VAL' s Hs).
  - exists [d]. cbn [ax_axes ax_expr]. split; [eapply yok_bin; eauto|].
    split; auto. split; auto. eapply vfrep_one; [|exact FD]. intros s Hs. apply VAL'; auto.
Qed.
End Case.
