(** Properties C24-C27, C37: record layouts, projections, integer powers, the
    reductions of the standard library, derived scalar operators. *)
From Verif Require Import Base Scalar Tensor Types Sym Phi Den Typing DenWf Layout Frontend Sample.

Section Props.
Context {FO : FloatOps} {EX : Externs}.

(** * C24 *)

(** Packing a structure succeeds.  Unpacking an expression with the value of
    the packed one gives a structure of the same shape, with the same names,
    dataclasses and leaf layouts, whose leaves have the values of the packed
    leaves; it has the same layout again. *)
Theorem C24_round_trip (dict_attr : nat -> bool) (E : env) (o : obj) :
  obj_ok dict_attr o ->
  exists l e, build_layout o = Ok l /\ struct_to_expr dict_attr l o = Ok e /\
    (Forall (defined E) (obj_leaves o) ->
     defined E e /\
     forall e', den E e' = den E e -> same_obj E o (to_array e' l) /\ build_layout (to_array e' l) = Ok l).
Proof.
  intros H. destruct (pack_defined dict_attr o H) as (l & e & B & S). exists l, e. split; auto. split; auto.
  intros D. exact (unpack_all dict_attr E o H D l e B S).
Qed.

(** A dictionary whose key is the name of a dict attribute cannot be packed:
    [hasattr] is asked before [in] (layout.py:95-98). *)
Theorem C24_attribute_key_refuted :
  exists (dict_attr : nat -> bool) o l, build_layout o = Ok l /\
    Forall (defined empty_env) (obj_leaves o) /\ struct_to_expr dict_attr l o = Err EType.
Proof.
  exists (fun n => n =? 3), (ODict [(3, ORaw (ascalar (SI 1)))]). eexists. split; [reflexivity|].
  split; [|reflexivity]. repeat constructor. eexists. reflexivity.
Qed.

(** A plain numpy array of rank 1 or more inside a structure has a layout but
    cannot be packed (ndarray.py:52-59 takes [.expr] of it). *)
Theorem C24_raw_array_refuted :
  exists (dict_attr : nat -> bool) o l, build_layout o = Ok l /\
    Forall (defined empty_env) (obj_leaves o) /\ struct_to_expr dict_attr l o = Err EType.
Proof.
  exists (fun n => false), (OTup [ORaw (mkArr KInt [2] [SI 1; SI 2])]). eexists. split; [reflexivity|].
  split; [|reflexivity]. repeat constructor. eexists. reflexivity.
Qed.

(** A dataclass without fields is not rejected as an empty tuple is, and its
    packing fails. *)
Theorem C24_empty_dataclass_refuted :
  exists (dict_attr : nat -> bool) o l, build_layout o = Ok l /\
    obj_leaves o = [] /\ struct_to_expr dict_attr l o = Err EValue.
Proof.
  exists (fun n => false), (OData 0 []). eexists. split; [reflexivity|]. split; reflexivity.
Qed.

(** {'a': (1, [x, y]), 'b': P(u=2)} *)
Example C24_example :
  let x := PStore (SV 0) (TScalar KInt) in
  let y := PStore (SV 1) (TVec (TScalar KInt)) in
  let o := ODict [(0, OTup [ORaw (ascalar (SI 1)); OList [OArr x LAtom; OArr y (LVec LAtom)]]);
                  (1, OData 7 [(2, ORaw (ascalar (SI 2)))])] in
  let E := upd (upd empty_env (SV 0) (vint 5)) (SV 1) (VArr (mkArr KInt [2] [SI 8; SI 9])) in
  obj_ok (fun n => n =? 9) o /\ Forall (defined E) (obj_leaves o) /\
  struct_to_expr (fun n => n =? 9) (LLab [(0, LPos [LAtom; LPos [LAtom; LVec LAtom]]); (1, LLab [(2, LAtom)] (Some 7))] None) o
    = Ok (PCons (PCons (p_int 1) (PCons x y)) (p_int 2)).
Proof.
  cbv zeta. split; [|split].
  - simpl. repeat split; try discriminate; repeat constructor; simpl; intuition discriminate.
  - repeat constructor; eexists; reflexivity.
  - reflexivity.
Qed.

(** * C25 *)

(** Component [i] of [n] components packed as nested pairs. *)
Theorem C25_projection (E : env) (es : list phi) (vs : list val) (e : phi) (i : nat) v :
  Forall2 (fun e v => den E e = Ok v) es vs -> reduce_cons es = Ok e ->
  nth_error vs i = Some v -> den E (project_tuple e i (length es)) = Ok v.
Proof.
  intros H R N. destruct (reduce_cons_den E es vs e H R) as (w & Hw & Dw).
  assert (L : length es = length vs) by (eapply Forall2_len; eauto). rewrite L.
  rewrite (project_den E vs i e w v) by (auto; apply nth_error_Some; congruence).
  f_equal. apply nth_error_nth. auto.
Qed.

(** Every non-empty list of components can be packed. *)
Theorem C25_packing (es : list phi) : es <> [] -> exists e, reduce_cons es = Ok e.
Proof. apply reduce_cons_some. Qed.

Example C25_example :
  let es := [p_int 4; p_int 5; p_int 6] in
  exists e, reduce_cons es = Ok e /\ Forall2 (fun e v => den empty_env e = Ok v) es [vint 4; vint 5; vint 6] /\
    map (fun i => den empty_env (project_tuple e i 3)) [0; 1; 2] = [Ok (vint 4); Ok (vint 5); Ok (vint 6)].
Proof. cbv zeta. eexists. split; [reflexivity|]. split; [repeat constructor|reflexivity]. Qed.

(** * C26 *)

(** For a positive power the construction terminates (two steps per bit at
    most [2 * k] in all) and multiplies copies of [x] only. *)
Theorem C26_terminates (fone : F) (x : phi) (k : Z) : k <> 0%Z ->
  exists fuel r, f_pow fone fuel x k = Some r /\
    product_of (if (k <? 0)%Z then PBin BMul (p_float fone) (PUn URecip x) else x) r.
Proof.
  intros Hk. exists (Z.to_nat (2 * Z.abs k)). unfold f_pow. destruct (Z.ltb_spec k 0).
  - destruct (pow_go_defined (f_div (p_float fone) x) (- k) ltac:(lia) (Z.to_nat (2 * Z.abs k)) ltac:(lia)) as (r & H1 & H2); eauto.
  - destruct (pow_go_defined x k ltac:(lia) (Z.to_nat (2 * Z.abs k)) ltac:(lia)) as (r & H1 & H2); eauto.
Qed.

(** Positive power of an integer. *)
Theorem C26_int_power (fone : F) (E : env) (x : phi) (n k : Z) fuel r :
  (1 <= k)%Z -> f_pow fone fuel x k = Some r -> den E x = Ok (vint n) -> den E r = Ok (vint (n ^ k)).
Proof.
  intros Hk H D. unfold f_pow in H. destruct (Z.ltb_spec k 0); [lia|].
  apply (pow_go_mul E x (SI n) (fun k => SI (n ^ k)%Z)) with (fuel := fuel); auto.
  - f_equal. apply Z.pow_1_r.
  - intros a b Ha Hb. simpl. do 2 f_equal. rewrite Z.pow_add_r; lia.
Qed.

(** Positive or negative power of a float, when float multiplication is
    associative on the powers of the base; the base of a negative power is
    1.0 * (1 / x). *)
Fixpoint fprod (x : F) (n : nat) : F := match n with 0 => x | S n => fmul (fprod x n) x end.
Theorem C26_float_power (fone : F) (E : env) (x : phi) (f : F) (k : Z) fuel r :
  let b := if (k <? 0)%Z then fmul fone (frecip f) else f in
  k <> 0%Z -> f_pow fone fuel x k = Some r -> den E x = Ok (vfloat f) ->
  (forall i j, fmul (fprod b i) (fprod b j) = fprod b (S (i + j))) ->
  den E r = Ok (vfloat (fprod b (Z.to_nat (Z.abs k) - 1))).
Proof.
  cbv zeta. intros Hk H D A. unfold f_pow in H.
  set (b := if (k <? 0)%Z then fmul fone (frecip f) else f) in *.
  assert (G : forall y, den E y = Ok (vfloat b) -> forall j, (1 <= j)%Z -> pow_go fuel y j = Some r ->
     den E r = Ok (vfloat (fprod b (Z.to_nat j - 1)))).
  { intros y Dy j Hj Hr. apply (pow_go_mul E y (SF b) (fun j => SF (fprod b (Z.to_nat j - 1)))) with (fuel := fuel); auto.
    intros u v Hu Hv. simpl. rewrite A. do 3 f_equal. lia. }
  destruct (Z.ltb_spec k 0) as [L|L].
  - replace (Z.abs k) with (- k)%Z by lia. eapply G; [|lia|exact H].
    unfold f_div. cbn [den p_float]. rewrite D. reflexivity.
  - replace (Z.abs k) with k by lia. eapply G; [exact D|lia|exact H].
Qed.

(** The zeroth power never terminates: [go(0)] calls [go(0 // 2)]. *)
Theorem C26_zero_refuted : exists (k : Z), forall (fone : F) (fuel : nat) (x : phi), f_pow fone fuel x k = None.
Proof. exists 0%Z. intros. apply pow_go_zero. Qed.

Example C26_example (fone : F) :
  exists r, f_pow fone 10 (p_int 3) 5 = Some r /\ den empty_env r = Ok (vint 243).
Proof. eexists. split; [reflexivity|]. reflexivity. Qed.

(** * C27 *)

(** The elements [f(0), ..., f(n-1)] of a library reduction with counter [c]:
    their values may not depend on the accumulator. *)
Definition folds_over (E : env) (f : phi -> phi) (sz : phi) (c acc : nat) (n : nat) (x : nat -> F) : Prop :=
  c <> acc /\ den E sz = Ok (vint (Z.of_nat n)) /\
  forall k a, k < n ->
    den (upd (upd E (SV acc) a) (SV c) (vint (Z.of_nat k))) (f (p_var c (TScalar KInt))) = Ok (vfloat (x k)).
Definition reduces_over (E : env) (f : phi -> phi) (sz : phi) (i a b : nat) (n : nat) (x : nat -> F) : Prop :=
  a <> b /\ den E sz = Ok (vint (Z.of_nat n)) /\
  forall k, k < n -> den (upd E (SX i) (vint (Z.of_nat k))) (f (p_at i)) = Ok (vfloat (x k)).

Lemma fold_bin_den E o g ident f sz c acc n x :
  (forall u v, sem_bin o (SF u) (SF v) = Some (SF (g u v))) -> folds_over E f sz c acc n x ->
  den E (m_fold (p_float ident) (PBin o) (TScalar KFloat) f sz c acc) =
    Ok (vfloat (fold_left g (map x (seq 0 n)) ident)).
Proof.
  intros Hg (Hne & Hz & Hx).
  rewrite (m_fold_den E _ _ _ _ f sz c acc _ (vfloat ident) (fun k => vfloat (x k)) (bin_computes o) Hne Hz).
  - rewrite Nat2Z.id, <- (map_map x vfloat). apply op_fold_bin. auto.
  - reflexivity.
  - intros k a Hk. apply Hx. lia.
Qed.

Lemma reduce_bin_den E o g ident f sz i a b n x :
  (forall u v, sem_bin o (SF u) (SF v) = Some (SF (g u v))) -> 1 <= n -> reduces_over E f sz i a b n x ->
  den E (m_reduce (p_float ident) (PBin o) (TScalar KFloat) f sz i a b) =
    Ok (vfloat (fold_left g (map x (seq 0 n)) ident)).
Proof.
  intros Hg Hn (Hne & Hz & Hx).
  rewrite (m_reduce_den E _ _ _ _ f sz i a b (Z.of_nat n) (vfloat ident) (fun k => vfloat (x k)) (bin_computes o) Hne ltac:(lia) Hz).
  - rewrite Nat2Z.id, <- (map_map x vfloat). apply op_fold_bin. auto.
  - reflexivity.
  - intros k Hk. split; [|split]; [|reflexivity|apply Hx; lia].
    simpl. unfold arr_wf. simpl. split; auto.
Qed.

(** Sums, left to right from 0.0, for every length. *)
Theorem C27_fold_sum (E : env) f sz c acc n (x : nat -> F) (fzero : F) :
  folds_over E f sz c acc n x ->
  den E (fold_sum fzero f sz c acc) = Ok (vfloat (fold_left fadd (map x (seq 0 n)) fzero)).
Proof. apply fold_bin_den. reflexivity. Qed.

Theorem C27_reduce_sum (E : env) f sz i a b n (x : nat -> F) (fzero : F) :
  1 <= n -> reduces_over E f sz i a b n x ->
  den E (reduce_sum fzero f sz i a b) = Ok (vfloat (fold_left fadd (map x (seq 0 n)) fzero)).
Proof. apply reduce_bin_den. reflexivity. Qed.

(** [le] is a total preorder on the numbers in [P] (floats other than NaN),
    [g] selects the smaller of its operands. *)
Definition selects (P : F -> Prop) (le : F -> F -> bool) (g : F -> F -> F) : Prop :=
  (forall a, P a -> le a a = true) /\
  (forall a b c, P a -> P b -> P c -> le a b = true -> le b c = true -> le a c = true) /\
  (forall a b, P a -> P b -> (g a b = a \/ g a b = b) /\ le (g a b) a = true /\ le (g a b) b = true).

(** [m] is an extremum of the [x k]. *)
Definition extremum (le : F -> F -> bool) (n : nat) (x : nat -> F) (m : F) : Prop :=
  (forall k, k < n -> le m (x k) = true) /\ exists k, k < n /\ le (x k) m = true.

Lemma extremum_fold P le g n x top : selects P le g -> P top -> 1 <= n ->
  (forall k, k < n -> P (x k) /\ le (x k) top = true) ->
  extremum le n x (fold_left g (map x (seq 0 n)) top).
Proof.
  intros (R & T & S) Pt Hn Hx.
  destruct (fold_left_extremum P le g top (map x (seq 0 n)) R T S Pt) as [A (m & B & C)].
  - apply Forall_map, Forall_forall. intros k Hk. apply in_seq in Hk. apply Hx. lia.
  - apply Forall_map, Forall_forall. intros k Hk. apply in_seq in Hk. apply Hx. lia.
  - destruct n; [lia|discriminate].
  - split.
    + intros k Hk. apply A, in_map, in_seq. lia.
    + apply in_map_iff in B as (k & <- & Hk). apply in_seq in Hk. exists k. split; [lia|auto].
Qed.

Theorem C27_fold_min (E : env) f sz c acc n (x : nat -> F) (finf : F) (P : F -> Prop) :
  folds_over E f sz c acc n x -> 1 <= n -> selects P fleb fmin ->
  P finf -> (forall k, k < n -> P (x k) /\ fleb (x k) finf = true) ->
  exists m, den E (fold_min finf f sz c acc) = Ok (vfloat m) /\ extremum fleb n x m.
Proof.
  intros H Hn S Pi Hx. eexists. split; [eapply fold_bin_den; eauto; reflexivity|].
  eapply extremum_fold; eauto.
Qed.

Theorem C27_fold_max (E : env) f sz c acc n (x : nat -> F) (fninf : F) (P : F -> Prop) :
  folds_over E f sz c acc n x -> 1 <= n -> selects P (fun a b => fleb b a) fmax ->
  P fninf -> (forall k, k < n -> P (x k) /\ fleb fninf (x k) = true) ->
  exists m, den E (fold_max fninf f sz c acc) = Ok (vfloat m) /\ extremum (fun a b => fleb b a) n x m.
Proof.
  intros H Hn S Pi Hx. eexists. split; [eapply fold_bin_den; eauto; reflexivity|].
  eapply extremum_fold; eauto.
Qed.

Theorem C27_reduce_min (E : env) f sz i a b n (x : nat -> F) (finf : F) (P : F -> Prop) :
  reduces_over E f sz i a b n x -> 1 <= n -> selects P fleb fmin ->
  P finf -> (forall k, k < n -> P (x k) /\ fleb (x k) finf = true) ->
  exists m, den E (reduce_min finf f sz i a b) = Ok (vfloat m) /\ extremum fleb n x m.
Proof.
  intros H Hn S Pi Hx. eexists. split; [eapply reduce_bin_den; eauto; reflexivity|].
  eapply extremum_fold; eauto.
Qed.

Theorem C27_reduce_max (E : env) f sz i a b n (x : nat -> F) (fninf : F) (P : F -> Prop) :
  reduces_over E f sz i a b n x -> 1 <= n -> selects P (fun a b => fleb b a) fmax ->
  P fninf -> (forall k, k < n -> P (x k) /\ fleb fninf (x k) = true) ->
  exists m, den E (reduce_max fninf f sz i a b) = Ok (vfloat m) /\ extremum (fun a b => fleb b a) n x m.
Proof.
  intros H Hn S Pi Hx. eexists. split; [eapply reduce_bin_den; eauto; reflexivity|].
  eapply extremum_fold; eauto.
Qed.

(** [j] is the first position of a minimum. *)
Definition first_min (n : nat) (x : nat -> F) (j : nat) : Prop :=
  j < n /\ (forall k, k < n -> fleb (x j) (x k) = true) /\ (forall k, k < j -> fleb (x k) (x j) = false).

Theorem C27_fold_argmin (E : env) f sz c acc n (x : nat -> F) (finf : F) (P : F -> Prop) :
  folds_over E f sz c acc n x -> 1 <= n ->
  (forall a, P a -> fleb a a = true) ->
  (forall a b c, P a -> P b -> P c -> fleb a b = true -> fleb b c = true -> fleb a c = true) ->
  (forall a b, P a -> P b -> fleb a b = true \/ fleb b a = true) ->
  P finf -> (forall k, k < n -> P (x k) /\ fleb (x k) finf = true) ->
  exists j, den E (fold_argmin finf f sz c acc) = Ok (vint (Z.of_nat j)) /\ first_min n x j.
Proof.
  intros (Hne & Hz & Hx) Hn R T To Pi Px.
  destruct (pick_first P x finf n R T To Pi Px Hn) as (j & Hj & Hs & H1 & H2).
  exists j. split; [|split; auto]. unfold fold_argmin.
  replace (vint (Z.of_nat j)) with (vint (snd (fold_left pick (map (fun k => (x k, Z.of_nat k)) (seq 0 n)) (finf, 0%Z)))) by (rewrite Hs; auto).
  set (m := m_fold _ _ _ _ _ _ _).
  assert (D : den E m = Ok (pairv (fold_left pick (map (fun k => (x k, Z.of_nat k)) (seq 0 n)) (finf, 0%Z)))).
  { unfold m. rewrite (m_fold_den E _ _ _ _ _ sz c acc _ (pairv (finf, 0%Z)) (fun k => pairv (x k, Z.of_nat k)) argmin_computes Hne Hz).
    - rewrite Nat2Z.id, <- (map_map (fun k => (x k, Z.of_nat k)) pairv). apply op_fold_pick.
    - reflexivity.
    - intros k a Hk. cbn [den]. rewrite Hx by lia. cbn [bind den p_var]. rewrite upd_eq. reflexivity. }
  cbn [den]. rewrite D. reflexivity.
Qed.

Theorem C27_reduce_argmin (E : env) f sz i a b n (x : nat -> F) (finf : F) (P : F -> Prop) :
  reduces_over E f sz i a b n x -> 1 <= n ->
  (forall a, P a -> fleb a a = true) ->
  (forall a b c, P a -> P b -> P c -> fleb a b = true -> fleb b c = true -> fleb a c = true) ->
  (forall a b, P a -> P b -> fleb a b = true \/ fleb b a = true) ->
  P finf -> (forall k, k < n -> P (x k) /\ fleb (x k) finf = true) ->
  exists j, den E (reduce_argmin finf f sz i a b) = Ok (vint (Z.of_nat j)) /\ first_min n x j.
Proof.
  intros (Hne & Hz & Hx) Hn R T To Pi Px.
  destruct (pick_first P x finf n R T To Pi Px Hn) as (j & Hj & Hs & H1 & H2).
  exists j. split; [|split; auto]. unfold reduce_argmin.
  replace (vint (Z.of_nat j)) with (vint (snd (fold_left pick (map (fun k => (x k, Z.of_nat k)) (seq 0 n)) (finf, 0%Z)))) by (rewrite Hs; auto).
  set (m := m_reduce _ _ _ _ _ _ _ _).
  assert (D : den E m = Ok (pairv (fold_left pick (map (fun k => (x k, Z.of_nat k)) (seq 0 n)) (finf, 0%Z)))).
  { unfold m. rewrite (m_reduce_den E _ _ _ _ _ sz i a b (Z.of_nat n) (pairv (finf, 0%Z)) (fun k => pairv (x k, Z.of_nat k)) argmin_computes Hne ltac:(lia) Hz).
    - rewrite Nat2Z.id, <- (map_map (fun k => (x k, Z.of_nat k)) pairv). apply op_fold_pick.
    - reflexivity.
    - intros k Hk. split; [|split].
      + simpl. unfold arr_wf. simpl. auto.
      + reflexivity.
      + cbn [den p_at]. rewrite Hx by lia. cbn [bind]. rewrite upd_eq. reflexivity. }
  cbn [den]. rewrite D. reflexivity.
Qed.

(** Every one of these helpers rejects integer elements: their identities are
    floats. *)
Theorem C27_int_elements_refuted :
  exists (f : phi -> phi), (forall c, typ (f (p_var c (TScalar KInt))) = Ok (TScalar KInt)) /\
  forall (u : F) sz c acc, typ sz = Ok (TScalar KInt) ->
    typ (fold_sum u f sz c acc) = Err EType /\ typ (fold_min u f sz c acc) = Err EType.
Proof.
  exists (fun i => i). split; [reflexivity|]. intros u sz c acc H. unfold fold_sum, fold_min, m_fold.
  split; cbn [typ]; rewrite H; reflexivity.
Qed.

(** * C37 *)

(** Derived integer operators: [other - self], comparisons with the operands
    exchanged, absolute value. *)
Theorem C37_int_operators (E : env) (a b : phi) (m n : Z) (fzero : F) :
  den E a = Ok (vint m) -> den E b = Ok (vint n) -> typ a = Ok (TScalar KInt) ->
  den E (f_rsub a b) = Ok (vint (n - m)) /\
  den E (f_gt a b) = Ok (vscalar (SB (n <? m)%Z)) /\
  den E (f_ge a b) = Ok (vscalar (SB (n <=? m)%Z)) /\
  den E (f_abs fzero a) = Ok (vint (Z.abs m)).
Proof.
  intros Ha Hb Ta. unfold f_rsub, f_gt, f_ge, f_abs. rewrite Ta. cbn [den p_int]. rewrite Ha, Hb. cbn.
  split; [|split; [reflexivity|split; [reflexivity|]]].
  - unfold vint, vscalar. do 4 f_equal. lia.
  - rewrite ?Ha; cbn; destruct (Z.ltb_spec 0 m) as [L|L]; cbn; rewrite ?Z.abs_eq, ?Z.abs_neq by lia; reflexivity.
Qed.

(** The float operators apply the primitive operations in this order. *)
Theorem C37_float_operators (E : env) (a b : phi) (x y fzero : F) :
  den E a = Ok (vfloat x) -> den E b = Ok (vfloat y) -> typ a = Ok (TScalar KFloat) ->
  den E (f_rsub a b) = Ok (vfloat (fadd (fneg x) y)) /\
  den E (f_div a b) = Ok (vfloat (fmul x (frecip y))) /\
  den E (f_gt a b) = Ok (vscalar (SB (fltb y x))) /\
  den E (f_ge a b) = Ok (vscalar (SB (fleb y x))) /\
  den E (f_abs fzero a) = Ok (vfloat (if fltb fzero x then x else fneg x)) /\
  den E (f_tanh a) = Ok (vfloat (fmul (fsub (fexp x) (fexp (fneg x))) (frecip (fadd (fexp x) (fexp (fneg x)))))).
Proof.
  intros Ha Hb Ta. unfold f_rsub, f_gt, f_ge, f_abs, f_div, f_tanh. rewrite Ta.
  cbn [den p_float]. rewrite Ha, Hb. cbn. rewrite ?Ha; cbn. destruct (fltb fzero x); repeat split; reflexivity.
Qed.

Example C37_example (fzero : F) :
  den empty_env (f_abs fzero (p_int (-4))) = Ok (vint 4) /\
  den empty_env (f_rsub (p_int 3) (p_int 10)) = Ok (vint 7).
Proof. split; reflexivity. Qed.

End Props.

(** max over [3; 1; 2], argmin over [4; 2; 2; 5], with numbers up to 100. *)
Definition tab_elem {FO : FloatOps} (l : list F) (i : phi) : phi :=
  PGet (PConst (mkArr KFloat [length l] (map SF l))) i.
Example C27_example {EX : Externs} :
  let f := tab_elem (FO := zfloat) [4; 2; 2; 5]%Z in
  let x k := nth k [4; 2; 2; 5]%Z 0%Z in
  folds_over (FO := zfloat) empty_env f (p_int 4) 0 1 4 x /\
  selects (FO := zfloat) (fun z => (z <= 100)%Z) fleb fmin /\
  den (FO := zfloat) empty_env (fold_min (FO := zfloat) 100%Z f (p_int 4) 0 1) = Ok (vfloat (FO := zfloat) 2%Z) /\
  den (FO := zfloat) empty_env (fold_argmin (FO := zfloat) 100%Z f (p_int 4) 0 1) = Ok (vint 1) /\
  den (FO := zfloat) empty_env (reduce_argmin (FO := zfloat) 100%Z f (p_int 4) 0 1 2) = Ok (vint 1).
Proof.
  cbv zeta. split; [|split; [|split; [|split]]].
  - split; [discriminate|]. split; [reflexivity|]. intros k a Hk.
    do 4 (destruct k as [|k]; [reflexivity|]). lia.
  - split; [|split]; simpl; intros.
    + apply Z.leb_refl.
    + apply Z.leb_le in H2, H3. apply Z.leb_le. lia.
    + split; [destruct (Z.min_spec a b); intuition|]. split; apply Z.leb_le; lia.
  - vm_compute. reflexivity.
  - vm_compute. reflexivity.
  - vm_compute. reflexivity.
Qed.

Print Assumptions C24_round_trip.
Print Assumptions C24_attribute_key_refuted.
Print Assumptions C24_raw_array_refuted.
Print Assumptions C24_empty_dataclass_refuted.
Print Assumptions C25_projection.
Print Assumptions C25_packing.
Print Assumptions C26_terminates.
Print Assumptions C26_int_power.
Print Assumptions C26_float_power.
Print Assumptions C26_zero_refuted.
Print Assumptions C27_fold_sum.
Print Assumptions C27_reduce_sum.
Print Assumptions C27_fold_min.
Print Assumptions C27_fold_max.
Print Assumptions C27_reduce_min.
Print Assumptions C27_reduce_max.
Print Assumptions C27_fold_argmin.
Print Assumptions C27_reduce_argmin.
Print Assumptions C27_int_elements_refuted.
Print Assumptions C37_int_operators.
Print Assumptions C37_float_operators.
