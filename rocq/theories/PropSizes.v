(** Properties C28, C29, C32, C33: inferred sizes, the compilation cache,
    equality of constants, sizes of expressions. *)
From Verif Require Import Base Scalar Tensor Types Sym Phi Den Term PhiTerm DenFree SpecPhi Lining Outline Dominators InlineMemo Checkers
  DenWf Sizes Cache Value.

Section Props.
Context {FO : FloatOps} {EX : Externs}.

(** * C33 *)

(** The size expression of an axis evaluates to the size of that axis.  (A
    negative comprehension size stands for an empty comprehension.) *)
Theorem C33_size_expression (e : phi) (E : env) (axis : nat) v d :
  den E e = Ok v -> vdim v axis = Ok d ->
  exists w z, den E (dim_of e axis) = Ok w /\ val_int w = Ok z /\ Z.to_nat z = d.
Proof. intros. eapply dim_of_den; eauto. Qed.

(** With a negative size the expression is not the size itself. *)
Theorem C33_negative_size_refuted :
  exists (e : phi) (E : env) v d, den E e = Ok v /\ vdim v 0 = Ok d /\ den E (dim_of e 0) <> Ok (vint (Z.of_nat d)).
Proof.
  exists (PVec 0 (p_int (-2)) (p_at 0)), empty_env. eexists. exists 0. split; [reflexivity|].
  split; [reflexivity|]. discriminate.
Qed.

(** array(lambda i, j: a[i][j] , size=(3, 2))[1] *)
Example C33_example :
  let a := PVec 0 (p_int 3) (PVec 1 (PBin BAdd (p_int 1) (p_int 1)) (PBin BMul (p_at 0) (p_at 1))) in
  dim_of a 0 = p_int 3 /\ dim_of (PGet a (p_int 1)) 0 = PDim a 1 /\
  den empty_env (PGet a (p_int 1)) = Ok (VArr (mkArr KInt [2] [SI 0; SI 1])) /\
  den empty_env (dim_of (PGet a (p_int 1)) 0) = Ok (vint 2).
Proof. cbv zeta. repeat split; reflexivity. Qed.

(** * C28 *)

Lemma infer_sizes_in body symbols captured0 sizes s e :
  infer_sizes body symbols captured0 None = Ok sizes -> In (s, e) sizes ->
  infer_size body (symbols ++ captured0) s = Ok e.
Proof.
  unfold infer_sizes. intros H Hs. generalize dependent (symbols ++ captured0). intros C H.
  apply mapM_Forall2 in H. induction H as [|x y l l' Hx F IH]; [destruct Hs|].
  destruct Hs as [->|Hs]; auto. inv_bind. exact Hb.
Qed.

(** A symbol of the comprehension, or bound between the comprehension and every
    access to an array that was considered, is not free in the inferred size. *)
Theorem C28_no_bound_symbol (body : phi) (symbols captured0 : list sym) sizes s e r :
  unshadowed body -> infer_sizes body symbols captured0 None = Ok sizes -> In (s, e) sizes ->
  free_in r e -> ~ In r symbols /\ ~ In r captured0.
Proof.
  intros U H Hs Hr. pose proof (infer_sizes_in _ _ _ _ _ _ H Hs) as Hi.
  assert (G : forall c, In c (candidates (direct_of s (accesses (psize body) (symbols ++ captured0) body))) ->
    isfree r c -> ~ In r (symbols ++ captured0)).
  { intros c Hc Hf Hin. unfold candidates in Hc. apply in_flat_map in Hc as ([t C] & Ht & Hc). cbn [fst snd] in Hc.
    destruct (existsb _ _) eqn:Q; [destruct Hc|]. destruct Hc as [<-|[]].
    apply with_indices_at_zero_free in Hf. apply direct_of_sound in Ht.
    apply accesses_accessed in Ht as (C' & Ha & HC).
    assert (Ut : unshadowed (dim_of t 0)) by (apply unshadowed_dim_of; eapply unshadowed_sub; [eapply accessed_sub; eauto|auto]).
    pose proof (isfree_tfree _ _ (unshadowed_hygienic _ Ut) Hf) as Hf'. 
    assert (X : existsb (fun s => smem s C) (fsyms (dim_of t 0)) = true); [|congruence].
    apply existsb_exists. exists r. split; [exact Hf'|]. apply smem_In. apply HC. apply in_or_app. auto. }
  enough (~ In r (symbols ++ captured0)) by (rewrite in_app_iff in *; tauto).
  unfold infer_size in Hi. destruct (candidates _) as [|c cs] eqn:Q; [discriminate|].
  apply free_in_isfree in Hr. destruct (1 <? length (dedupe (c :: cs))).
  - injection Hi as <-. apply free_in_isfree in Hr. simpl in Hr. destruct Hr as [Hr|Hr].
    + apply (G c); simpl; auto. apply free_in_isfree. auto.
    + apply any_Exists in Hr as (c' & Hc & Hr). rewrite dedupe_in in Hc. apply (G c'); auto. apply free_in_isfree. auto.
  - injection Hi as <-. apply (G c); simpl; auto.
Qed.

(** Where the inferred size has a value [z], every considered array has size
    [z] along the accessed axis, at every place of the body: every access
    [t[s]] with [0 <= s < z] is in range.  An array is considered when its size
    does not mention a symbol bound between the comprehension and an access.
    [E] is the environment of the comprehension, [E'] that of the access: they
    differ in the symbols bound by the comprehension and inside it, and in the
    indices of enclosing comprehensions.  The size of the array may not depend
    on the latter (arrays are rectangular). *)
Theorem C28_in_range (body : phi) (symbols captured0 : list sym) sizes s e (t : phi) (E E' : env) w z v :
  unshadowed body -> infer_sizes body symbols captured0 None = Ok sizes -> In (s, e) sizes ->
  (exists C, accessed s t C body) ->
  (forall C r, accessed s t C body -> free_in r (dim_of t 0) -> ~ In r (symbols ++ captured0 ++ C)) ->
  den E e = Ok w -> val_int w = Ok z ->
  (forall r, free_in r (dim_of t 0) -> is_index r = false -> E' r = E r) ->
  den E' (dim_of t 0) = den (zeroed E') (dim_of t 0) ->
  den E' t = Ok v -> (exists d, vdim v 0 = Ok d) -> vdim v 0 = Ok (Z.to_nat z).
Proof.
  intros U H Hs [C HC] HF De Ve HE Hrect Dt [d Hd].
  pose proof (infer_sizes_in _ _ _ _ _ _ H Hs) as Hi.
  destruct (accessed_in s t C body HC (psize body) (symbols ++ captured0) (le_n _)) as (C1 & I1 & _).
  destruct (direct_of_complete _ _ _ _ I1) as [C2 I2].
  assert (Ut : unshadowed (dim_of t 0)) by (apply unshadowed_dim_of; eapply unshadowed_sub; [eapply accessed_sub; eauto|auto]).
  assert (Cand : In (with_indices_at_zero (dim_of t 0)) (candidates (direct_of s (accesses (psize body) (symbols ++ captured0) body)))).
  { unfold candidates. apply in_flat_map. exists (t, C2). split; auto. cbn [fst snd].
    destruct (existsb _ _) eqn:Q; [|simpl; auto]. exfalso.
    apply existsb_exists in Q as (r & Hr & Q). apply smem_In in Q.
    apply direct_of_sound, accesses_accessed in I2 as (C3 & A3 & E3). apply E3 in Q.
    apply (HF C3 r A3); [apply free_in_isfree; apply (tfree_isfree (dim_of t 0) r); exact Hr|].
    rewrite app_assoc. exact Q. }
  destruct (infer_size_value _ _ _ _ _ _ _ Hi De Ve _ Cand) as (w' & Dw & Vw).
  apply with_indices_at_zero_den in Dw; auto.
  destruct (dim_of_den _ _ _ _ _ Dt Hd) as (w2 & z2 & D2 & V2 & Z2).
  rewrite Hrect in D2. rewrite (den_ext _ (zeroed E') (zeroed E)) in D2.
  - rewrite Dw in D2. injection D2 as <-. rewrite Vw in V2. injection V2 as <-. subst d. exact Hd.
  - intros r Hr. unfold zeroed. destruct (is_index r) eqn:Q; auto. apply HE; auto. apply free_in_isfree; auto.
Qed.

(** Explicit sizes are taken as given; their number must match. *)
Theorem C28_explicit (body : phi) (symbols captured0 : list sym) l sizes :
  infer_sizes body symbols captured0 (Some l) = Ok sizes ->
  map fst sizes = symbols /\ map snd sizes = l.
Proof.
  unfold infer_sizes. intros H. inv_bind. apply Nat.eqb_eq in Hb.
  assert (G : forall (l : list sym) (r : list phi), length l = length r -> map fst (combine l r) = l /\ map snd (combine l r) = r).
  { clear. induction l; destruct r; simpl; intros H; try lia; auto. destruct (IHl r); [lia|]. split; f_equal; auto. }
  apply G. auto.
Qed.

(** An access whose array has a size that depends on a bound symbol is not
    taken into account: nothing keeps it in range.
    array(lambda i: a[i] + (let y = b in y[i])), with a of size 3, b of size 2. *)
Theorem C28_local_array_refuted :
  exists body sizes e t (E E' : env) z v,
    unshadowed body /\ infer_sizes body [SX 0] [] None = Ok sizes /\ In (SX 0, e) sizes /\
    (exists C, accessed (SX 0) t C body) /\
    den E e = Ok (vint z) /\ den E' t = Ok v /\ vdim v 0 <> Ok (Z.to_nat z).
Proof.
  set (a := PConst (mkArr KInt [3] [SI 1; SI 2; SI 3])).
  set (b := PConst (mkArr KInt [2] [SI 1; SI 2])).
  set (y := PStore (SV 1) (TVec (TScalar KInt))).
  exists (PBin BAdd (PGet a (p_at 0)) (PLet 1 b (PGet y (p_at 0)))).
  eexists. eexists. exists y, empty_env, (upd empty_env (SV 1) (VArr (mkArr KInt [2] [SI 1; SI 2]))). eexists. eexists.
  split; [apply distinct_unshadowed, distinctb_sound; reflexivity|].
  split; [reflexivity|]. split; [left; reflexivity|]. split.
  { eexists. eapply acc_sub; [simpl; right; left; reflexivity|]. eapply acc_sub; [simpl; right; left; reflexivity|]. apply acc_here. }
  split; [reflexivity|]. split; [reflexivity|]. discriminate.
Qed.

(** array(lambda i: a[i] + b[i]) with a of size 3 and b = array(.., size=3). *)
Example C28_example :
  let a := PStore (SV 0) (TVec (TScalar KInt)) in
  let b := PVec 1 (p_int 3) (p_at 1) in
  let body := PBin BAdd (PGet a (p_at 0)) (PGet b (p_at 0)) in
  let E := upd empty_env (SV 0) (VArr (mkArr KInt [3] [SI 1; SI 2; SI 3])) in
  unshadowed body /\
  infer_sizes body [SX 0] [] None = Ok [(SX 0, PAssertEq (PDim a 0) [PDim a 0; p_int 3])] /\
  den E (PAssertEq (PDim a 0) [PDim a 0; p_int 3]) = Ok (vint 3) /\
  (exists C, accessed (SX 0) a C body) /\ (exists C, accessed (SX 0) b C body).
Proof.
  cbv zeta. split; [apply distinct_unshadowed, distinctb_sound; reflexivity|].
  split; [reflexivity|]. split; [reflexivity|]. split; eexists.
  - eapply acc_sub; [simpl; left; reflexivity|]. apply acc_here.
  - eapply acc_sub; [simpl; right; left; reflexivity|]. apply acc_here.
Qed.

(** * C29 *)

(** Whatever calls were made before, a call returns what tracing and compiling
    afresh would return. *)
Theorem C29_cache_transparent (Arg Out Backend : Type) (backend_eqb : Backend -> Backend -> bool)
    (type_of : Arg -> res ty) (fun_ : nat -> list phi -> res (phi * nat))
    (stage : Backend -> phi -> res (list (nat * Arg) -> res Out)) (declared : option (list ty)) :
  (forall a b, backend_eqb a b = true <-> a = b) ->
  (* tracing does the same whichever fresh symbols it is given *)
  (forall n m b args, afresh Arg Out Backend type_of fun_ stage declared n b args =
                      afresh Arg Out Backend type_of fun_ stage declared m b args) ->
  forall (n : nat) (calls : list (Backend * list Arg)),
  interprets Arg Out Backend backend_eqb type_of fun_ stage declared (mkState Arg Out Backend [] n) calls =
  map (fun c => afresh Arg Out Backend type_of fun_ stage declared 0 (fst c) (snd c)) calls.
Proof.
  intros HB HN n calls. apply interprets_afresh; auto. intros ts b s H. discriminate.
Qed.

(** The function is traced on distinct new variables, one per argument, each of
    the type of its argument; the staged code is that of the traced expression,
    and every variable is bound to the argument in its position. *)
Theorem C29_arguments (Arg Out Backend : Type)
    (type_of : Arg -> res ty) (fun_ : nat -> list phi -> res (phi * nat))
    (stage : Backend -> phi -> res (list (nat * Arg) -> res Out)) (declared : option (list ty)) b ts n s m args :
  types_from_args Arg type_of declared args = Ok ts ->
  build Arg Out Backend fun_ stage b ts n = Ok (s, m) ->
  map fst (combine (fst s) args) = fst s /\ map snd (combine (fst s) args) = args /\
  NoDup (fst s) /\ Forall (fun x => n <= x < n + length args) (fst s) /\
  exists es e, fun_ (n + length args) es = Ok (e, m) /\ stage b e = Ok (snd s) /\
    Forall2 (fun p x => exists t, type_of (snd p) = Ok t /\ x = PStore (SV (fst p)) t) (combine (fst s) args) es.
Proof.
  intros T B. destruct (build_vars Arg Out Backend type_of fun_ stage declared b ts n s m args T B) as [V1 V2].
  split; [exact V1|]. split; [exact V2|].
  assert (F : mapM type_of args = Ok ts).
  { unfold types_from_args in T. apply bind_ok in T as (ts' & T & D). destruct declared as [d|]; [destruct (tys_eqb ts' d)|]; congruence. }
  assert (L : length ts = length args) by (apply mapM_length in F; congruence).
  unfold build, with_varargs in B. apply bind_ok in B as (r & W & B). apply bind_ok in W as (x & W & Q). injection Q as <-.
  apply bind_ok in B as (call & C & B). injection B as <- <-. cbn [fst snd] in *.
  split; [apply seq_NoDup|]. split; [rewrite Forall_forall; intros y Hy; apply in_seq in Hy; lia|].
  destruct x as [e m]. rewrite L in W. eexists _, e. split; [exact W|]. split; [exact C|].
  clear - F. revert ts F n. induction args as [|a args IH]; intros ts F n; cbn [mapM] in F.
  - injection F as <-. constructor.
  - apply bind_ok in F as (t & F1 & F). apply bind_ok in F as (ts' & F2 & F). injection F as <-. simpl. constructor; eauto.
Qed.

(** With a declared signature, a call with other argument types is rejected and
    leaves the function as it was; a call with those types does what it does
    without a declaration. *)
Theorem C29_declared_types (Arg Out Backend : Type) (backend_eqb : Backend -> Backend -> bool)
    (type_of : Arg -> res ty) (fun_ : nat -> list phi -> res (phi * nat))
    (stage : Backend -> phi -> res (list (nat * Arg) -> res Out)) (d ts : list ty) b args st :
  mapM type_of args = Ok ts ->
  (ts <> d -> interpret Arg Out Backend backend_eqb type_of fun_ stage (Some d) st b args = (Err EType, st)) /\
  (ts = d -> interpret Arg Out Backend backend_eqb type_of fun_ stage (Some d) st b args =
             interpret Arg Out Backend backend_eqb type_of fun_ stage None st b args).
Proof.
  intros T. unfold interpret, types_from_args. rewrite T. cbn [bind]. pose proof (tys_eqb_eq ts d) as H.
  destruct (tys_eqb ts d); split; intros E; auto; [destruct E; apply H; auto|apply H in E; discriminate].
Qed.

(** A function traced as x + x, run by the reference semantics. *)
Definition dbl (n : nat) (l : list phi) : res (phi * nat) :=
  match l with [x] => Ok (PBin BAdd x x, n) | _ => Err EType end.
Definition den_stage (b : bool) (e : phi) : res (list (nat * arr) -> res val) :=
  Ok (fun l => den (fold_left (fun E p => upd E (SV (fst p)) (VArr (snd p))) l empty_env) e).
Example C29_example :
  let type_of (a : arr) := Ok (ndarray_type (length (ashape a)) (akind a)) in
  (forall n m b args, afresh arr val bool type_of dbl den_stage None n b args =
                      afresh arr val bool type_of dbl den_stage None m b args) /\
  interprets arr val bool Bool.eqb type_of dbl den_stage None (mkState _ _ _ [] 5)
    [(true, [ascalar (SI 2)]); (true, [ascalar (SI 7)]); (true, [])]
  = [Ok (vint 4); Ok (vint 14); Err EType] /\
  interprets arr val bool Bool.eqb type_of dbl den_stage (Some [TScalar KInt]) (mkState _ _ _ [] 5)
    [(true, [ascalar (SI 2)]); (true, [ascalar (SB true)])]
  = [Ok (vint 4); Err EType].
Proof.
  cbv zeta. split; [|split; reflexivity]. intros n m b args. destruct args as [|a [|a' l]]; [reflexivity| |].
  - unfold afresh, types_from_args, build, with_varargs. cbn. rewrite !upd_eq. reflexivity.
  - unfold afresh, types_from_args, build, with_varargs. cbn. destruct (mapM _ l); reflexivity.
Qed.

(** * C32 *)

(** Constants that compare equal have the same element kind, the same shape and
    numerically equal elements (so the same type). *)
Theorem C32_equal_constants (big : nat) (W : list vobj) x y :
  heap W -> In x W -> In y W -> veqb big x y = true ->
  match cont x, cont y with
  | CArr a, CArr b => akind a = akind b /\ ashape a = ashape b /\
                      Forall2 (fun s t => num_eq s t = true) (adata a) (adata b)
  | CPair l r, CPair l' r' => l = l' /\ r = r'
  | COther, COther => cid x = cid y
  | _, _ => False
  end.
Proof.
  intros HW Ix Iy H. pose proof (veqb_spec big W x y HW Ix Iy H) as S.
  destruct (cont x), (cont y); cbv iota zeta in S; try tauto; try (destruct S; discriminate).
  destruct S as [S _]. injection S as <- <-. auto.
Qed.

(** Equality is an equivalence relation (numpy's float equality being symmetric
    and transitive). *)
Theorem C32_equivalence (big : nat) (W : list vobj) :
  feq_laws -> heap W ->
  (forall x, In x W -> veqb big x x = true) /\
  (forall x y, In x W -> In y W -> veqb big x y = true -> veqb big y x = true) /\
  (forall x y z, In x W -> In y W -> In z W -> veqb big x y = true -> veqb big y z = true -> veqb big x z = true).
Proof.
  intros FL HW. split; [intros; apply veqb_refl|]. split.
  - intros x y. apply (veqb_sym big W); auto.
  - intros x y z. apply (veqb_trans big W); auto.
Qed.

(** Equal constants hash alike, when numerically equal elements have the same
    bytes (no float zeros of different sign, no distinct NaNs). *)
Theorem C32_hash (h_data : kind -> list scalar -> Z) (h_id : nat -> Z) (h_pair : Z -> Z -> Z)
    (big : nat) (W : list vobj) x y :
  heap W -> In x W -> In y W ->
  (forall a b s t, cont x = CArr a -> cont y = CArr b -> In s (adata a) -> In t (adata b) -> num_eq s t = true -> s = t) ->
  veqb big x y = true -> vhash h_data h_id h_pair big x = vhash h_data h_id h_pair big y.
Proof. intros. eapply vhash_eq; eauto. Qed.

(** Of two arrays with the same contents, those whose leading axis is below the
    limit are equal, and larger ones only if they are the same object. *)
Theorem C32_by_identity (big : nat) (W : list vobj) x y a b :
  heap W -> In x W -> In y W -> cont x = CArr a -> cont y = CArr b -> akind a = akind b -> ashape a = ashape b ->
  Forall2 (fun s t => num_eq s t = true) (adata a) (adata b) ->
  (veqb big x y = true <-> match ashape a with [] => True | n :: _ => n < big end \/ x = y).
Proof.
  intros [HW _] Ix Iy Cx Cy K S D. unfold veqb. rewrite Cx, Cy, <- S, Nat.eqb_refl, <- K, kind_eqb_refl. cbn [andb].
  assert (A : array_equal a b = true).
  { unfold array_equal. rewrite <- S. apply andb_true_iff. split; [apply list_nat_eqb_eq; reflexivity|].
    clear - D. induction D; simpl; auto. rewrite H. auto. }
  rewrite A. unfold data_is_small. destruct (ashape a) as [|n sh]; [tauto|]. destruct (Nat.ltb_spec n big).
  - tauto.
  - rewrite Nat.eqb_eq. split; [intros Q; right; apply HW; auto|intros [Q|Q]; [lia|congruence]].
Qed.

Example C32_example :
  let a := mkArr KInt [2] [SI 1; SI 2] in
  let W := [VObj 0 1 (CArr a); VObj 2 3 (CArr a); VObj 4 5 (CPair (VObj 0 1 (CArr a)) (VObj 2 3 (CArr a)))] in
  heap W /\ veqb 1024 (VObj 0 1 (CArr a)) (VObj 2 3 (CArr a)) = true /\
  veqb 2 (VObj 0 1 (CArr a)) (VObj 2 3 (CArr a)) = false.
Proof.
  cbv zeta. split; [|split; reflexivity]. split; simpl; intros x y Hx Hy;
    repeat (destruct Hx as [<-|Hx]); repeat (destruct Hy as [<-|Hy]); try tauto; simpl; try discriminate; auto.
Qed.

End Props.

(** Floats with two zeros: -0.0 == 0.0. *)
Definition signed_zeros : FloatOps := {|
  F := bool; F_eq_dec := Bool.bool_dec;
  fadd := orb; fsub := orb; fmul := andb; fpow := andb; fmin := andb; fmax := orb;
  fneg := negb; frecip := negb; fexp := negb; fsin := negb; fcos := negb;
  fltb := fun _ _ => false; fleb := fun _ _ => true; feqb := fun _ _ => true; f_of_Z := fun _ => true;
  fjunk := true; zjunk := 0%Z; bjunk := false |}.

(** -0.0 and 0.0 are equal constants with different bytes, so they may hash
    differently: equal constants do not always hash alike. *)
Theorem C32_signed_zero_refuted :
  exists (FO : FloatOps) (h_data : kind -> list scalar -> Z) (W : list vobj) x y,
    feq_laws /\ heap W /\ In x W /\ In y W /\ veqb 1024 x y = true /\
    forall h_id h_pair, vhash h_data h_id h_pair 1024 x <> vhash h_data h_id h_pair 1024 y.
Proof.
  exists signed_zeros.
  exists (fun _ (l : list (@scalar signed_zeros)) => match l with [SF b] => (if (b : bool) then 1%Z else 0%Z) | _ => 0%Z end).
  set (x := VObj 0 1 (CArr (ascalar (FO := signed_zeros) (SF (FO := signed_zeros) true)))).
  set (y := VObj 2 3 (CArr (ascalar (FO := signed_zeros) (SF (FO := signed_zeros) false)))).
  exists [x; y], x, y. split; [split; reflexivity|]. split.
  - split; simpl; intros a b Ha Hb; repeat (destruct Ha as [<-|Ha]); repeat (destruct Hb as [<-|Hb]); try tauto; simpl; try discriminate; auto.
  - split; [simpl; auto|]. split; [simpl; auto|]. split; [reflexivity|]. intros. discriminate.
Qed.

Print Assumptions C33_size_expression.
Print Assumptions C33_negative_size_refuted.
Print Assumptions C28_no_bound_symbol.
Print Assumptions C28_in_range.
Print Assumptions C28_explicit.
Print Assumptions C28_local_array_refuted.
Print Assumptions C29_cache_transparent.
Print Assumptions C29_arguments.
Print Assumptions C29_declared_types.
Print Assumptions C32_equal_constants.
Print Assumptions C32_equivalence.
Print Assumptions C32_hash.
Print Assumptions C32_by_identity.
Print Assumptions C32_signed_zero_refuted.
