(** Properties C03, C06, C07, C10, C11, C13: tree reduction, clipped shifts, size
    equivalence, scalar signatures, type soundness, struct-of-arrays types. *)
From Coq Require Import Relations.
From Verif Require Import Base Scalar Tensor Types Sym Phi Den Equiv ClipShift TreeReduce TypesFacts Typing.

Section Props.
Context {FO : FloatOps} {EX : Externs}.

(** * C03 *)

(** Row [k] of the reduced vectors: their [k]-th elements as nested pairs. *)
Definition row (vs : list val) (k : nat) : res val :=
  let* es := mapM (fun u => vget u (Z.of_nat k)) vs in
  match es with [] => Err EType | e0 :: es' => Ok (fold_left VPair es' e0) end.

Lemma iter_rows (op : val -> val -> res val) (vs : list val) : forall n k es a,
  mapM (row vs) (seq k n) = Ok es ->
  iter_res (fun k v => let* es := mapM (fun u => vget u (Z.of_nat k)) vs in
                       match es with
                       | [] => Err EType
                       | e0 :: es' => op v (fold_left VPair es' e0)
                       end) k n a = seq_reduce op es a.
Proof.
  induction n as [|n IH]; simpl; intros k es a H; inv_bind; auto.
  unfold row in Hb. apply bind_ok in Hb as (l & H1 & H2). rewrite H1. simpl.
  destruct l as [|e0 es']; inv_bind. simpl. destruct (op a (fold_left VPair es' e0)); simpl; auto.
Qed.

(** C03. The tree reduction the array backends run computes the value of the
    reduction, for an operation [f] that is associative and has [e0] as
    identity on the values concerned; commutativity is not needed. *)
Theorem C03_tree_reduction (E : env) init x y xy vecs vs n es e0 (P : val -> Prop) (f : val -> val -> val) :
  (* the vectors, their common length, their rows and the initial value *)
  mapM (den E) vecs = Ok vs -> vecs <> [] -> Forall (fun v => vdim v 0 = Ok n) vs ->
  mapM (row vs) (seq 0 n) = Ok es -> den E init = Ok e0 ->
  (* the operation *)
  (forall a b, P a -> P b -> den (upd (upd E (SV x) a) (SV y) b) xy = Ok (f a b) /\ P (f a b)) ->
  (forall a b c, P a -> P b -> P c -> f a (f b c) = f (f a b) c) ->
  (forall a, P a -> f e0 a = a /\ f a e0 = a) ->
  P e0 -> Forall P es ->
  den E (PReduce init x y xy vecs) = Ok (fold_left f es e0) /\
  tree_reduce (fun a b => den (upd (upd E (SV x) a) (SV y) b) xy) es e0 = Ok (fold_left f es e0).
Proof.
  intros Hv Hne Hn He Hi Hop Has Hid P0 Pes.
  set (op := fun a b => den (upd (upd E (SV x) a) (SV y) b) xy).
  assert (S : seq_reduce op es e0 = Ok (fold_left f es e0)).
  { apply (seq_reduce_left op P f); auto. }
  split.
  - cbn [den]. rewrite Hv. cbn [bind].
    assert (HM : mapM (fun v => vdim v 0) vs = Ok (repeat n (length vs))).
    { clear - Hn. induction Hn; simpl; auto. rewrite H. simpl. rewrite IHHn. reflexivity. }
    rewrite HM. cbn [bind].
    assert (L : length vs = length vecs) by (apply mapM_length in Hv; auto).
    destruct vs as [|v vs]; [destruct vecs; [congruence|discriminate]|].
    cbn [length repeat].
    assert (G : forallb (Nat.eqb n) (repeat n (length vs)) = true).
    { apply forallb_forall. intros z Hz. apply repeat_spec in Hz. subst. apply Nat.eqb_refl. }
    rewrite G. cbn [guard bind]. rewrite Hi. cbn [bind]. rewrite <- S.
    apply (iter_rows op (v :: vs) n 0 es e0 He).
  - rewrite (tree_eq_seq op P f); auto.
Qed.

(** Integer sums: v.reduce(0, add) over [1,2,3,4,5]. *)
Example C03_example :
  let xt := PStore (SV 0) (TScalar KInt) in let yt := PStore (SV 1) (TScalar KInt) in
  let vec := PConst (mkArr KInt [5] [SI 1; SI 2; SI 3; SI 4; SI 5]) in
  let xy := PBin BAdd xt yt in
  let isint (v : val) := exists z, v = vint z in
  let plus (a b : val) := match val_int a, val_int b with Ok x, Ok y => vint (x + y) | _, _ => a end in
  let es := map vint [1; 2; 3; 4; 5]%Z in
  (forall E a b, isint a -> isint b ->
     den (upd (upd E (SV 0) a) (SV 1) b) xy = Ok (plus a b) /\ isint (plus a b)) /\
  (forall a b c, isint a -> isint b -> isint c -> plus a (plus b c) = plus (plus a b) c) /\
  (forall a, isint a -> plus (vint 0) a = a /\ plus a (vint 0) = a) /\
  Forall isint es /\
  den empty_env (PReduce (p_int 0) 0 1 xy [vec]) = Ok (vint 15) /\
  tree_reduce (fun a b => den (upd (upd empty_env (SV 0) a) (SV 1) b) xy) es (vint 0) = Ok (vint 15).
Proof.
  cbv zeta. split; [|split; [|split; [|split; [|split]]]]; try reflexivity.
  - intros E a b [p ->] [q ->]. split; [reflexivity|]. eexists; reflexivity.
  - intros a b c [p ->] [q ->] [r ->]. simpl. rewrite Z.add_assoc. reflexivity.
  - intros a [p ->]. simpl. split; [reflexivity|]. unfold vint, ascalar. simpl. rewrite Z.add_0_r. reflexivity.
  - repeat constructor; eexists; reflexivity.
Qed.

(** C03 needs the identity: the tree puts the initial value last. *)
Theorem C03_initial_value_refuted :
  exists xy es e0, (* an associative operation: keep the left operand *)
    (forall a b, den (upd (upd empty_env (SV 0) a) (SV 1) b) xy = Ok a) /\
    den empty_env (PReduce (PConst (ascalar (SI e0))) 0 1 xy [PConst (mkArr KInt [2] es)]) = Ok (vint 9) /\
    tree_reduce (fun a b => den (upd (upd empty_env (SV 0) a) (SV 1) b) xy)
      (map vscalar es) (vint e0) = Ok (vint 1).
Proof.
  exists (PStore (SV 0) (TScalar KInt)), [SI 1; SI 2], 9%Z. repeat split; reflexivity.
Qed.

(** * C06 *)

(** C06. If the index expression [e] is recognised as a clipped shift of index
    [i] with parts [d], [lo], [hi], no part mentions an index, and [e] takes an
    integer value exactly when the parts do, namely the clipped shift. *)
Theorem C06_clipped_shift_sound e i d lo hi :
  match_index_clipped_shift e = Some (i, (d, lo, hi)) ->
  (forall p, In (Some p) [d; lo; hi] -> forall j, ~ In (SX j) (fsyms p)) /\
  forall E k, E (SX i) = Some (vint k) ->
  forall z, (exists v, den E e = Ok v /\ val_scalar v = Ok (SI z)) <->
    exists zd zl zh, den_opt E d zd /\ den_opt E lo zl /\ den_opt E hi zh /\
      z = (let s := k + match zd with Some d => d | None => 0 end in
           let s := match zl with Some l => Z.max s l | None => s end in
           match zh with Some h => Z.min s h | None => s end)%Z.
Proof.
  intros H. apply match_index_sound in H. destruct H as (N1 & N2 & N3 & H). split.
  - intros p Hp j Hj.
    assert (G : forall q, no_index (Some q) -> ~ In (SX j) (fsyms q)).
    { intros q Hq Hi. simpl in Hq. assert (In (SX j) (free_indices q)) as A.
      { unfold free_indices. apply filter_In. auto. }
      rewrite Hq in A. destruct A. }
    destruct Hp as [->|[->|[->|[]]]]; eapply G; eauto.
  - intros E k Hk z. exact (H E k Hk z).
Qed.

(** min(max(i + n, 0), 7 - 1) *)
Example C06_example :
  let n := PStore (SV 0) (TScalar KInt) in
  let e := PBin BMin (PBin BMax (PBin BAdd (p_at 3) n) (p_int 0)) (PBin BSub (p_int 7) (p_int 1)) in
  match_index_clipped_shift e =
    Some (3, (Some n, Some (p_int 0), Some (PBin BSub (p_int 7) (p_int 1)))) /\
  den (upd (upd empty_env (SX 3) (vint 5)) (SV 0) (vint 4)) e = Ok (vint 6).
Proof. split; reflexivity. Qed.

(** * C07 *)

(** C07. After any sequence of [unite] calls: the answer of [equiv], the class
    reported by [find], and what [unite] returns.  [norm] is the normalisation
    of terms: nothing for Equivalence, setting free indices to 0 for
    SizeEquivalence. *)
Theorem C07_equiv_exact {T} (dec : forall x y : T, {x = y} + {x <> y}) (norm : T -> T)
  (idem : forall x, norm (norm x) = norm x) (ps : list (T * T)) (args : list T) :
  uf_equiv dec norm (uf_run dec norm ps) args = true <->
  forall x y, In x args -> In y args ->
    clos_refl_sym_trans T (fun a b => exists p, In p ps /\ a = norm (fst p) /\ b = norm (snd p))
      (norm x) (norm y).
Proof.
  rewrite (equiv_exact dec norm idem). unfold connected.
  assert (G : forall x y, clos_refl_sym_trans T (united norm ps) x y <->
    clos_refl_sym_trans T (fun a b => exists p, In p ps /\ a = norm (fst p) /\ b = norm (snd p)) x y).
  { intros x y. split; intros H; induction H;
      eauto using rst_refl, rst_sym, rst_trans; apply rst_step.
    - destruct H as (p & q & H & -> & ->). exists (p, q). auto.
    - destruct H as ([p q] & H & -> & ->). exists p, q. auto. }
  split; intros H x y Hx Hy; specialize (H x y Hx Hy); apply G; auto.
Qed.

Theorem C07_find_exact {T} (dec : forall x y : T, {x = y} + {x <> y}) (norm : T -> T)
  (idem : forall x, norm (norm x) = norm x) (ps : list (T * T)) (x y : T) :
  norm y = y -> (In y (uf_find norm (uf_run dec norm ps) x) <-> connected norm ps x y).
Proof. exact (find_exact dec norm idem ps x y). Qed.

Theorem C07_unite_result {T} (dec : forall x y : T, {x = y} + {x <> y}) (norm : T -> T)
  (idem : forall x, norm (norm x) = norm x) (ps : list (T * T)) (a b : T) :
  snd (uf_unite dec norm (uf_run dec norm ps) a b) = true <-> ~ connected norm ps a b.
Proof. exact (unite_result dec norm idem ps a b). Qed.

Example C07_example :
  let s := uf_run Nat.eq_dec (fun x => x) [(1, 2); (3, 4); (5, 5); (4, 2)] in
  uf_equiv Nat.eq_dec (fun x => x) s [1; 3; 4] = true /\
  uf_equiv Nat.eq_dec (fun x => x) s [1; 5] = false /\
  (forall x : nat, (fun x => x) ((fun x => x) x) = (fun x => x) x).
Proof. repeat split; reflexivity. Qed.

(** * C10 *)

(** C10. An application to the declared number of arguments is accepted exactly
    when the argument types are scalars whose kinds, with the result kind, are
    an instance of the signature. *)
Theorem C10_signature_exact (sg : signature) (cs : constraints) (types : list ty) (t : ty) :
  length types = length (fst sg) ->
  match snd sg with SLetter v => In (SLetter v) (fst sg) | SKind _ => True end ->
  (resolve_scalar_signature types sg cs = Ok t <->
   exists (sigma : nat -> kind),
     (forall v ks, In (SLetter v) (fst sg) -> assoc v cs = Some ks -> In (sigma v) ks) /\
     types = map (fun a => TScalar (sig_kind sigma a)) (fst sg) /\
     t = TScalar (sig_kind sigma (snd sg))).
Proof.
  intros L B. rewrite (resolve_exact sg cs types t L B). split.
  - intros (ks & k & -> & -> & sigma & R & -> & ->). exists sigma. rewrite map_map. auto.
  - intros (sigma & R & -> & ->). exists (map (sig_kind sigma) (fst sg)), (sig_kind sigma (snd sg)).
    rewrite map_map. repeat split; auto. exists sigma. auto.
Qed.

(** C10, per operator: accepted kinds are exactly those the element operation
    is defined on, and the reported kind is the kind of its result. *)
Theorem C10_unary (o : uop) (t : ty) (s : scalar) :
  typ (PUn o (PConst (ascalar s))) = Ok t <->
  exists r, sem_un o s = Some r /\ t = TScalar (skind r).
Proof.
  cbn [typ]. simpl. rewrite resolve_un. pose proof (sem_un_kind o s) as Q.
  destruct (sem_un o s) as [r|]; simpl in Q; rewrite <- Q; split.
  - intros H. injection H as <-. eauto.
  - intros (r' & H & ->). injection H as <-. reflexivity.
  - discriminate.
  - intros (r' & H & _). discriminate.
Qed.

Theorem C10_binary (o : bop) (t : ty) (s1 s2 : scalar) :
  typ (PBin o (PConst (ascalar s1)) (PConst (ascalar s2))) = Ok t <->
  exists r, sem_bin o s1 s2 = Some r /\ t = TScalar (skind r).
Proof.
  cbn [typ]. simpl. rewrite resolve_bin. pose proof (sem_bin_kind o s1 s2) as Q.
  destruct (sem_bin o s1 s2) as [r|]; simpl in Q; rewrite <- Q; split.
  - intros H. injection H as <-. eauto.
  - intros (r' & H & ->). injection H as <-. reflexivity.
  - discriminate.
  - intros (r' & H & _). discriminate.
Qed.

Theorem C10_where (t : ty) (s1 s2 s3 : scalar) :
  typ (PWhere (PConst (ascalar s1)) (PConst (ascalar s2)) (PConst (ascalar s3))) = Ok t <->
  exists r, sem_where s1 s2 s3 = Some r /\ t = TScalar (skind r).
Proof.
  cbn [typ bind length ashape ascalar akind ndarray_type]. rewrite resolve_where. pose proof (sem_where_kind s1 s2 s3) as Q.
  destruct (sem_where s1 s2 s3) as [r|]; simpl in Q; rewrite <- Q; split.
  - intros H. injection H as <-. eauto.
  - intros (r' & H & ->). injection H as <-. reflexivity.
  - discriminate.
  - intros (r' & H & _). discriminate.
Qed.

Example C10_example :
  let add := sig_bin BAdd in
  resolve_scalar_signature [TScalar KInt; TScalar KInt] (fst add) (snd add) = Ok (TScalar KInt) /\
  resolve_scalar_signature [TScalar KInt; TScalar KFloat] (fst add) (snd add) = Err EType /\
  resolve_scalar_signature [TScalar KBool; TScalar KBool] (fst add) (snd add) = Err EType /\
  length (fst (fst add)) = 2 /\ result_bound (fst add).
Proof. repeat split; try reflexivity. apply sig_bin_bound. Qed.

(** C10 needs the number of arguments: too few arguments are accepted. *)
Theorem C10_arity_refuted :
  exists sg cs types t, length types <> length (fst sg) /\ result_bound sg /\
    resolve_scalar_signature types sg cs = Ok t.
Proof.
  exists (fst (sig_bin BAdd)), (snd (sig_bin BAdd)), [TScalar KInt], (TScalar KInt).
  split; [discriminate|]. split; [apply sig_bin_bound|reflexivity].
Qed.

(** * C11 *)

(** C11. Evaluation of an accepted term whose symbols have values of their
    declared types never ends in a type error, and its value has the reported
    type.  [scoped]: occurrences carry the type of their binder. [int_indices]:
    indices and asserted sizes are integers. [exts_ok]: extrinsic functions
    return what they declare. *)
Theorem C11_type_soundness (e : phi) (G : tctx) (E : env) (t : ty) :
  typ e = Ok t -> scoped G e -> int_indices e -> exts_ok e ->
  (forall s t v, G s = Some t -> E s = Some v -> has_type v t) ->
  den E e <> Err EType /\ forall v, den E e = Ok v -> has_type v t.
Proof.
  intros HT HS HI HX HE. pose proof (type_sound e G E t HT HS HI HX HE) as H.
  unfold nt in H. split.
  - intros Hc. rewrite Hc in H. congruence.
  - intros v Hv. rewrite Hv in H. auto.
Qed.

(** fold(0, lambda k, acc: acc + x[k], count=2) paired with x's first element *)
Example C11_example :
  let vt := TVec (TScalar KInt) in
  let x := PStore (SV 0) vt in
  let acc := PStore (SV 2) (TScalar KInt) in let k := PStore (SV 1) (TScalar KInt) in
  let e := PCons (PFold 1 (p_int 2) 2 (p_int 0) (PBin BAdd acc (PGet x k))) (PGet x (p_int 0)) in
  let G := upd empty_env (SV 0) vt in
  let E := upd empty_env (SV 0) (VArr (mkArr KInt [2] [SI 10; SI 20])) in
  typ e = Ok (TPair (TScalar KInt) (TScalar KInt)) /\ scoped G e /\ int_indices e /\ exts_ok e /\
  (forall s t v, G s = Some t -> E s = Some v -> has_type v t) /\
  den E e = Ok (VPair (vint 30) (vint 10)).
Proof.
  cbv zeta. split; [reflexivity|]. split; [|split; [|split; [|split]]]; try reflexivity.
  - simpl. repeat (split || eexists || reflexivity || constructor || (unfold arr_wf; simpl)).
  - simpl. repeat (split || reflexivity).
  - simpl. tauto.
  - intros s t v. unfold upd. destruct (sym_eqb s (SV 0)); [|discriminate].
    intros A B. injection A as <-. injection B as <-.
    split; [split; [reflexivity|repeat constructor]|reflexivity].
Qed.

(** C11 needs integer indices: a float index is accepted by the type checker. *)
Theorem C11_float_index_refuted (f : F) :
  exists e t, typ e = Ok t /\ den empty_env e = Err EType.
Proof.
  exists (PGet (PConst (mkArr KInt [1] [SI 3])) (PConst (ascalar (SF f)))), (TScalar KInt).
  split; reflexivity.
Qed.

(** C11 needs [scoped]: the checker does not compare an occurrence's type with
    its binder's. *)
Theorem C11_unscoped_refuted :
  exists e t v, typ e = Ok t /\ den empty_env e = Ok v /\ ~ has_type v t.
Proof.
  exists (PLet 0 (p_int 3) (PStore (SV 0) (TScalar KBool))), (TScalar KBool), (vint 3).
  split; [reflexivity|]. split; [reflexivity|]. intros [_ H]. discriminate H.
Qed.

(** * C13 *)

Lemma primitive_len t p : primitive_type t = Ok p -> 1 <= length p /\ (has_pair t = true -> 2 <= length p).
Proof.
  revert p. induction t as [k|e IH|a IHa b IHb]; simpl; intros p H.
  - injection H as <-. simpl. split; [lia|discriminate].
  - apply bind_ok in H as (q & Hq & H). apply bind_ok in H as (s & Hs & H). injection H as <-.
    destruct (IH q Hq) as [_ I2]. split; [simpl; lia|]. intros HP. specialize (I2 HP). destruct q as [|? [|]]; simpl in *; try lia; discriminate.
  - apply bind_ok in H as (q & Hq & H). apply bind_ok in H as (s & Hs & H). injection H as <-.
    destruct (IHa _ Hq), (IHb _ Hs). rewrite app_length. lia.
Qed.
Lemma primitive_is_flat t p : primitive_type t = Ok p -> flat t = true.
Proof.
  revert p. induction t as [k|e IH|a IHa b IHb]; simpl; intros p H; auto.
  - apply bind_ok in H as (q & Hq & H). apply bind_ok in H as (s & Hs & H).
    destruct (has_pair e) eqn:HP; auto. destruct (primitive_len _ _ Hq) as [_ I2]. specialize (I2 HP).
    destruct q as [|? [|]]; simpl in *; try lia; discriminate.
  - apply bind_ok in H as (q & Hq & H). apply bind_ok in H as (s & Hs & H). apply andb_true_iff. eauto.
Qed.
Lemma has_pair_soa t : has_pair (soa_aux true t) = has_pair t /\ has_pair (soa_aux false t) = has_pair t.
Proof. induction t as [k|e [IH1 IH2]|a _ b _]; simpl; auto. Qed.
Lemma soa_flat_shallow t : flat (soa_ty t) = true -> shallow t = true.
Proof.
  unfold soa_ty. induction t as [k|e IH|a IHa b IHb]; simpl; intros H; auto.
  - clear IH. induction e as [k|e _|a IHa b IHb]; simpl in *; auto.
    + destruct (has_pair_soa e) as [Q1 Q2]. rewrite Q1 in H. auto.
    + apply andb_true_iff in H as [H1 H2]. apply andb_true_iff; auto.
  - apply andb_true_iff in H as [H1 H2]. apply andb_true_iff; auto.
Qed.
Lemma soa_primitive_iff t : (exists p, primitive_type (soa_ty t) = Ok p) <-> shallow t = true.
Proof.
  split; [intros (p & H); apply soa_flat_shallow; eapply primitive_is_flat; eauto|].
  intros H. eexists. apply soa_primitive. auto.
Qed.

(** [record_at d t]: a record occurs in [t] under [d] vectors. *)
Inductive record_at : nat -> ty -> Prop :=
| rec_here a b : record_at 0 (TPair a b)
| rec_left d a b : record_at d a -> record_at d (TPair a b)
| rec_right d a b : record_at d b -> record_at d (TPair a b)
| rec_vec d e : record_at d e -> record_at (S d) (TVec e).

Lemma has_pair_record t : has_pair t = true <-> exists d, record_at d t.
Proof.
  induction t as [k|e IH|a _ b _]; simpl.
  - split; [discriminate|]. intros (d & H). inversion H.
  - rewrite IH. split; intros (d & H); [exists (S d); constructor; auto|]. inversion H; subst. eauto.
  - split; auto. intros _. exists 0. constructor.
Qed.
Lemma shallow_record t : shallow t = true <-> forall d, record_at d t -> d < 2.
Proof.
  induction t as [k|e _|a IHa b IHb].
  - split; auto. intros _ d H. inversion H.
  - simpl. induction e as [k|e _|a IHa b IHb].
    + split; auto. intros _ d H. inversion H; subst. inversion H2.
    + rewrite negb_true_iff. split.
      * intros H d R. inversion R; subst. inversion H2; subst.
        assert (has_pair e = true) by (apply has_pair_record; eauto). congruence.
      * intros H. destruct (has_pair e) eqn:Q; auto. apply has_pair_record in Q as (d & Q).
        assert (S (S d) < 2) by (apply H; repeat constructor; auto). lia.
    + rewrite andb_true_iff, IHa, IHb. split.
      * intros [H1 H2] d R. inversion R; subst. inversion H3; subst; [lia|apply H1|apply H2]; constructor; auto.
      * intros H. split; intros d R; inversion R; subst; apply H; constructor; [apply rec_left|apply rec_right]; auto.
  - simpl. rewrite andb_true_iff, IHa, IHb. split.
    + intros [H1 H2] d R. inversion R; subst; [lia|apply H1|apply H2]; auto.
    + intros H. split; intros d R; apply H; [apply rec_left|apply rec_right]; auto.
Qed.

(** C13. The converted type has the leaves (element kind, rank, in order) of the
    original; its array layout can be computed exactly when no record is more
    than one vector deep, and then consists of exactly these leaves; a type without records
    under vectors is unchanged. *)
Theorem C13_leaves (t : ty) : forall r, leaves r (soa_ty t) = leaves r t.
Proof. exact (leaves_soa t). Qed.

Theorem C13_primitive_type (t : ty) (p : pty) :
  primitive_type (soa_ty t) = Ok p -> p = leaves 0 t.
Proof. exact (soa_primitive_any t p). Qed.

Theorem C13_primitive_type_defined (t : ty) :
  (exists p, primitive_type (soa_ty t) = Ok p) <-> (forall d, record_at d t -> d < 2).
Proof. rewrite soa_primitive_iff. exact (shallow_record t). Qed.

Theorem C13_unchanged (t : ty) : flat t = true -> soa_ty t = t.
Proof. exact (soa_flat_id t). Qed.

Example C13_example :
  let t := TVec (TPair (TScalar KInt) (TPair (TScalar KFloat) (TScalar KBool))) in
  (forall d, record_at d t -> d < 2) /\
  primitive_type (soa_ty t) = Ok [(1, KInt); (1, KFloat); (1, KBool)] /\
  flat (TPair (TVec (TVec (TScalar KInt))) (TScalar KBool)) = true.
Proof. split; [apply shallow_record; reflexivity|]. repeat split; reflexivity. Qed.

(** Full C13 fails: a matrix of records keeps its records under a vector, and
    its array layout cannot be computed. *)
Theorem C13_rank2_refuted :
  exists t, (exists er, primitive_type (soa_ty t) = Err er) /\ flat (soa_ty t) = false /\
    leaves 0 t = [(2, KInt); (2, KInt)].
Proof. exists (TVec (TVec (TPair (TScalar KInt) (TScalar KInt)))). repeat split; try reflexivity. eexists; reflexivity. Qed.

End Props.

Print Assumptions C03_tree_reduction.
Print Assumptions C03_initial_value_refuted.
Print Assumptions C06_clipped_shift_sound.
Print Assumptions C07_equiv_exact.
Print Assumptions C07_find_exact.
Print Assumptions C07_unite_result.
Print Assumptions C10_signature_exact.
Print Assumptions C10_unary.
Print Assumptions C10_binary.
Print Assumptions C10_where.
Print Assumptions C10_arity_refuted.
Print Assumptions C11_type_soundness.
Print Assumptions C11_float_index_refuted.
Print Assumptions C11_unscoped_refuted.
Print Assumptions C13_leaves.
Print Assumptions C13_primitive_type.
Print Assumptions C13_primitive_type_defined.
Print Assumptions C13_unchanged.
Print Assumptions C13_rank2_refuted.
