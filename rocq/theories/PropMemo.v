(** Property C40: the table of compiled expressions (phi_to_yarr.py:36, 297-304). *)
From Verif Require Import Base Scalar Tensor Types Sym Phi Den NdOps Term PhiTerm DenFree SpecPhi Lining Outline Dominators
  InlineMemo GenCheck Checkers Soa OutlinePass Sample Yarr Codegen Compile CodegenMemo StrictCode CodegenLocal MemoSound Tidy
  PropCodegen.

Section Props.
Context {FO : FloatOps} {EX : Externs}.

(** Every call of Index() (phi_to_yarr.py:208, 416) makes an index that occurs
    nowhere else: terms translated with a new index (folds and reductions) have
    different ones, none of them from the program. *)
Definition new_names fl orc (p : phi) : Prop :=
  (forall e e', visits fl orc p e -> visits fl orc p e' -> needs_name e = true -> needs_name e' = true ->
     name_of orc e = name_of orc e' -> e = e') /\
  (forall e, visits fl orc p e -> needs_name e = true -> ~ In (SX (name_of orc e)) (syms p)).

(** no fold the translation meets is a candidate for an einsum (phi_to_yarr.py:80-155) *)
Definition no_sums_of_products fl orc (p : phi) : Prop :=
  forall c size acc init body, visits fl orc p (PFold c size acc init body) -> no_einsum fl (PFold c size acc init body) = true.
(** no element of a reduction uses the accumulator (see C22) *)
Definition plain_elements fl orc (p : phi) : Prop :=
  forall c size acc init body elem r, visits fl orc p (PFold c size acc init body) -> reduces fl orc c size acc init body = Some (elem, r) ->
    ~ In (SV acc) (fsyms elem).

(** With any choice of options: if every symbol is bound once, the table changes
    nothing, neither the code nor the error. *)
Theorem C40_table_transparent fl orc p fuel :
  distinct_binders p -> new_names fl orc p -> no_sums_of_products fl orc p -> plain_elements fl orc p -> weight p <= fuel ->
  mlower fl orc fuel p = lower fl orc fuel p.
Proof.
  intros DB [NI NN] NE PE W. apply memo_transparent; auto. apply distinct_tidy; auto. intros. right. eapply PE; eauto.
Qed.

(** For the other options no further conditions are needed. *)
Theorem C40_table_loops fl orc p fuel : use_reductions fl = false -> use_einsum fl = false ->
  distinct_binders p -> new_names fl orc p -> weight p <= fuel ->
  mlower fl orc fuel p = lower fl orc fuel p.
Proof.
  intros R E DB NM W. apply C40_table_transparent; auto.
  - intros c size acc init body _. unfold no_einsum. rewrite E. reflexivity.
  - intros c size acc init body elem r _ H. unfold reduces in H. rewrite R in H. discriminate.
Qed.

(** The code C19, C22 and C23 are about (translated with all axes checked) is the
    code the unchecked translation with the table returns. *)
Theorem C40_table_checked fl orc p fuel y :
  distinct_binders p -> new_names (code_flags fl) orc p -> no_sums_of_products (code_flags fl) orc p -> plain_elements (code_flags fl) orc p ->
  weight p <= fuel -> lower fl orc fuel p = Ok y -> mlower (code_flags fl) orc fuel p = Ok y.
Proof.
  intros DB NM NE PE W H. rewrite C40_table_transparent by auto. revert H. apply C19_strict_is_code.
Qed.

(** Such names exist: after a symbol the fold or reduction binds. *)
Theorem C40_names_exist fl orc p k :
  distinct_binders p -> (forall e, name_of orc e = binder_name k e) -> (forall i, In (SX i) (syms p) -> i < k) -> new_names fl orc p.
Proof. intros DB N K. exact (binder_names fl orc p k DB N K). Qed.

(** ** Deciding the conditions *)
Fixpoint reach fl orc (fuel : nat) (e : phi) : list phi :=
  match fuel with
  | 0 => [e]
  | S fuel => e :: flat_map (fun k => reach fl orc fuel (snd k)) (kids fl orc e)
  end.
Lemma reach_closed fl orc p l : In p l -> (forall e, In e l -> forall k, In k (kids fl orc e) -> In (snd k) l) ->
  forall e, visits fl orc p e -> In e l.
Proof. intros H C e V. induction V as [|e sc c V IH K]; auto. apply (C e IH (sc, c) K). Qed.
End Props.

Section Samples.
#[local] Existing Instance zfloat.
#[local] Existing Instance no_externs.
Notation float_ := (TScalar KFloat).
Notation int_ := (TScalar KInt).

(** all the flags of phi_to_yarr.py:25-35; with and without the checks of axes the code leaves out *)
Definition all_on (st : bool) : flags := mkFlags true true true true true st.
Definition same_sizes : oracle := mkOracle (fun _ _ => false) phi_eqb (fun _ => 0).
Definition xs : phi := PStore (SV 10) (TVec float_).
Definition wt_ : phi := PStore (SV 11) float_.
Definition fv x : phi := PStore (SV x) float_.
Definition iv x : phi := PStore (SV x) int_.
Definition is_ok {A} (r : res A) : bool := match r with Ok _ => true | Err _ => false end.

(** The converted program contains the same loop twice, for two different
    indices (see C41).  The loop's own variables are known to the table from the
    first copy, with the first index as an axis; the second copy is compiled with
    them, and the result has an axis that is not in scope: an AssertionError.
    array(lambda i: (s(i), s(i) + 1.0), size=xs.size(0))[1] where s(i) is
    fold(0.0, lambda k, acc: acc * w + xs[i], count=3). *)
Definition twice_prog : phi :=
  let s := PFold 1 (ci 3) 2 (cf 0) (PBin BAdd (PBin BMul (fv 2) wt_) (PGet xs (idx_ 0))) in
  PGet (PVec 0 (PDim xs 0) (PCons s (PBin BAdd s (cf 1)))) (ci 1).
Theorem C40_duplicated_refuted :
  typ twice_prog = Ok (TPair float_ float_) /\ distinct_binders twice_prog /\
  exists q, struct_of_arrays 100 twice_prog = Ok q /\
    (exists y, lower (all_on true) same_sizes 100 q = Ok y) /\ mlower (all_on false) same_sizes 100 q = Err EAssert.
Proof.
  split; [reflexivity|]. split; [apply distinctb_sound; vm_compute; reflexivity|].
  assert (A : exists q, struct_of_arrays 100 twice_prog = Ok q) by (eexists; vm_compute; reflexivity). destruct A as (q & Q).
  exists q. split; [exact Q|]. split.
  - assert (B : match struct_of_arrays 100 twice_prog with Ok q => is_ok (lower (all_on true) same_sizes 100 q) | _ => false end = true)
      by (vm_compute; reflexivity).
    rewrite Q in B. destruct (lower (all_on true) same_sizes 100 q); [eauto|discriminate].
  - assert (B : match struct_of_arrays 100 twice_prog with Ok q => mlower (all_on false) same_sizes 100 q | Err e => Err e end = Err EAssert)
      by (vm_compute; reflexivity).
    rewrite Q in B. exact B.
Qed.

(** Without records: the attempt to compile a fold as an einsum is given up half
    way, and what it has put into the table stays.
    fold(0.0, lambda j, acc: acc + (a(j) * w + float(j) * w), count=xs.size(0)) where a(j) is
    fold(0.0, lambda k, b: b * w + xs[j], count=3). *)
Definition half_prog : phi :=
  let a := PFold 3 (ci 3) 4 (cf 0) (PBin BAdd (PBin BMul (fv 4) wt_) (PGet xs (iv 1))) in
  PFold 1 (PDim xs 0) 2 (cf 0) (PBin BAdd (fv 2) (PBin BAdd (PBin BMul a wt_) (PBin BMul (PUn UFloat (iv 1)) wt_))).
Theorem C40_einsum_refuted :
  typ half_prog = Ok float_ /\ distinct_binders half_prog /\
  (exists y, lower (all_on true) same_sizes 100 half_prog = Ok y) /\
  mlower (all_on false) same_sizes 100 half_prog = Err EAssert.
Proof.
  split; [reflexivity|]. split; [apply distinctb_sound; vm_compute; reflexivity|]. split.
  - assert (B : is_ok (lower (all_on true) same_sizes 100 half_prog) = true) by (vm_compute; reflexivity).
    destruct (lower (all_on true) same_sizes 100 half_prog); [eauto|discriminate].
  - vm_compute. reflexivity.
Qed.

(** ** A program meeting the hypotheses of C40_table_checked, with all options on *)

(** A reduction over a loop, and a loop used twice:
    array(lambda i: fold(0.0, lambda j, acc: acc + a(j), count=xs.size(0)) + (b(i) + b(i))) where a(j) is
    fold(0.0, lambda k, b: b * w + xs[j], count=3) and b(i) is fold(0.0, lambda k, b: b * w + xs[i], count=2). *)
Definition new_sizes : oracle := mkOracle (fun _ _ => false) phi_eqb (binder_name 20).
Definition tidy_prog : phi :=
  let a := PFold 3 (ci 3) 4 (cf 0) (PBin BAdd (PBin BMul (fv 4) wt_) (PGet xs (iv 1))) in
  let b := PFold 5 (ci 2) 6 (cf 0) (PBin BAdd (PBin BMul (fv 6) wt_) (PGet xs (idx_ 0))) in
  PVec 0 (PDim xs 0) (PBin BAdd (PFold 1 (PDim xs 0) 2 (cf 0) (PBin BAdd (fv 2) a)) (PBin BAdd b b)).
Definition tidy_code : yarr := match lower (all_on true) new_sizes 100 tidy_prog with Ok y => y | Err _ => YTuple [] end.
Definition reduced (y : yarr) : bool :=
  match y with YTranspose [0] (YBin BAdd (YUnsqueeze [] (YTranspose [] (YBin BAdd _ (YReduceAxis RAdd 0 _) None))) _ None) => true | _ => false end.
Definition met : list phi := reach (all_on false) new_sizes 20 tidy_prog.
Definition fold_ok (e : phi) : bool :=
  match e with
  | PFold c size acc init body =>
      no_einsum (all_on false) e &&
      match reduces (all_on false) new_sizes c size acc init body with Some (elem, _) => negb (smem (SV acc) (fsyms elem)) | None => true end
  | _ => true
  end.
Lemma met_all e : visits (all_on false) new_sizes tidy_prog e -> In e met.
Proof.
  apply reach_closed; [left; reflexivity|]. intros x Hx k Hk.
  assert (B : forallb (fun e => forallb (fun k => existsb (phi_eqb (snd k)) met) (kids (all_on false) new_sizes e)) met = true) by (vm_compute; reflexivity).
  rewrite forallb_forall in B. specialize (B x Hx). rewrite forallb_forall in B. specialize (B k Hk).
  apply existsb_exists in B as (y & Hy & Q). apply phi_eqb_eq in Q. congruence.
Qed.
Lemma met_ok e : visits (all_on false) new_sizes tidy_prog e -> fold_ok e = true.
Proof.
  intros V. apply met_all in V. revert e V. apply forallb_forall. vm_compute. reflexivity.
Qed.
Example C40_example :
  distinct_binders tidy_prog /\ new_names (all_on false) new_sizes tidy_prog /\
  no_sums_of_products (all_on false) new_sizes tidy_prog /\ plain_elements (all_on false) new_sizes tidy_prog /\
  weight tidy_prog <= 100 /\ lower (all_on true) new_sizes 100 tidy_prog = Ok tidy_code /\
  reduced tidy_code = true /\ mlower (all_on false) new_sizes 100 tidy_prog = Ok tidy_code.
Proof.
  assert (DB : distinct_binders tidy_prog) by (apply distinctb_sound; vm_compute; reflexivity).
  assert (NM : new_names (all_on false) new_sizes tidy_prog).
  { eapply (C40_names_exist _ _ _ 20 DB); [reflexivity|]. intros i H.
    assert (B : forallb (fun s => match s with SX i => i <? 20 | _ => true end) (syms tidy_prog) = true) by (vm_compute; reflexivity).
    rewrite forallb_forall in B. specialize (B _ H). apply Nat.ltb_lt. exact B. }
  assert (NE : no_sums_of_products (all_on false) new_sizes tidy_prog).
  { intros c size acc init body V. apply met_ok in V. cbn [fold_ok] in V. apply andb_prop in V. apply V. }
  assert (PE : plain_elements (all_on false) new_sizes tidy_prog).
  { intros c size acc init body elem r V R K. apply met_ok in V. cbn [fold_ok] in V. apply andb_prop in V as [_ V]. rewrite R in V.
    apply smem_In in K. rewrite K in V. discriminate. }
  assert (W : weight tidy_prog <= 100) by (apply Nat.leb_le; vm_compute; reflexivity).
  assert (L : lower (all_on true) new_sizes 100 tidy_prog = Ok tidy_code).
  { assert (B : is_ok (lower (all_on true) new_sizes 100 tidy_prog) = true) by (vm_compute; reflexivity).
    unfold tidy_code. destruct (lower (all_on true) new_sizes 100 tidy_prog); [reflexivity|discriminate]. }
  split; [exact DB|]. split; [exact NM|]. split; [exact NE|]. split; [exact PE|]. split; [exact W|]. split; [exact L|].
  split; [vm_compute; reflexivity|]. exact (C40_table_checked (all_on true) new_sizes tidy_prog 100 tidy_code DB NM NE PE W L).
Qed.
End Samples.

Print Assumptions C40_table_transparent.
Print Assumptions C40_table_loops.
Print Assumptions C40_table_checked.
Print Assumptions C40_names_exist.
Print Assumptions C40_duplicated_refuted.
Print Assumptions C40_einsum_refuted.
