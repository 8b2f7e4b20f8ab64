(** Properties C50-C52: [or_empty], extrinsic functions and [eval]. *)
From Verif Require Import Base Scalar Tensor Types TypesFacts Sym Phi Den Term PhiTerm DenFree SpecPhi Lining LiningFacts Outline Dominators InlineMemo DenWf Sizes Typing Layout Frontend
  Checkers Comprehension ComprehensionSem Slice WhereVec Boundary PropComprehension
  NdOps Yarr Axial Codegen Compile Sample PropAxes PropCodegen PropReduce.

Section Props.
Context {FO : FloatOps} {EX : Externs}.

(** * C50 *)

Lemma nonempty_cond E e s c v d : vec_size (OArr e (LVec s)) 0 = Ok (OArr c LAtom) -> den E e = Ok v -> vdim v 0 = Ok d ->
  den E (f_gt c (p_int 0)) = Ok (vscalar (SB (0 <? d))).
Proof.
  intros H D V. cbn [vec_size] in H. apply bind_ok in H as (q & Q & H). injection H as <-. apply mk_ok in Q as [-> _].
  unfold f_gt. cbn [den]. rewrite D. cbn [bind]. rewrite V. cbn. repeat f_equal.
  destruct d; cbn; auto.
Qed.

Lemma or_empty_parts (dict_attr : nat -> bool) e s items o n r : or_empty dict_attr (OArr e (LVec s)) items o n = Ok r -> exists c x,
  vec_size (OArr e (LVec s)) 0 = Ok (OArr c LAtom) /\ getitem dict_attr items n (OArr e (LVec s)) = Ok x /\
  std_where dict_attr (OArr (f_gt c (p_int 0)) LAtom) x o (n + length items) = Ok r.
Proof.
  unfold or_empty. intros H. apply bind_ok in H as (z & Z & H). apply bind_ok in H as (w & W & H). apply bind_ok in H as (c & C & H).
  apply bind_ok in H as (x & X & H). apply mk_ok in C as [-> _]. pose proof Z as Z'. cbn [vec_size] in Z'.
  apply bind_ok in Z' as (q & Q & Z'). injection Z' as <-. injection W as <-. exists q, x. auto.
Qed.

(** [a.or_empty((x1, ..., xn), empty)] is [a[x1, ..., xn]] if [a] has elements
    and [empty] if it has none. *)
Theorem C50_or_empty (dict_attr : nat -> bool) (E : env) (e : phi) l n (xs : list obj) (ks : list Z) empty r v d w s se sr :
  or_empty dict_attr (OArr e (Nat.iter (length xs) LVec l)) (map IAt xs) empty n = Ok r -> xs <> [] ->
  (* the elements and [empty] are structures of scalars *)
  layout_ok dict_attr l -> lvecs l = 0 -> obj_ok dict_attr empty ->
  env_wf E -> consts_wf e -> Forall (fun x => Forall consts_wf (obj_leaves x)) xs -> Forall consts_wf (obj_leaves empty) ->
  den E e = Ok v -> vdim v 0 = Ok d -> Forall2 (index_is E) xs ks -> vgets v ks = Ok w -> unpack w l = Ok s ->
  oden E empty = Ok se -> oden E r = Ok sr ->
  build_layout empty = Ok l /\ sr = if 0 <? d then s else se.
Proof.
  intros H NE LO Z OE W CE CX CM D V HX VG U DE DR.
  assert (N : Nat.iter (length xs) LVec l = LVec (Nat.iter (length xs - 1) LVec l)).
  { destruct xs; [congruence|]. simpl. rewrite Nat.sub_0_r. reflexivity. }
  rewrite N in H. destruct (or_empty_parts _ _ _ _ _ _ _ H) as (c & x & S & G & HW). rewrite <- N in G.
  pose proof (C46_getitem dict_attr E e l n xs ks x v w s G NE HX D VG U) as DX.
  assert (TA : to_array e (Nat.iter (length xs) LVec l) = OArr e (Nat.iter (length xs) LVec l)) by (rewrite N; reflexivity).
  rewrite <- TA in G. destruct (getitem_points dict_attr n xs (length xs) e l x eq_refl G) as (es & E1 & ->).
  destruct (to_array_ok dict_attr l (gets e (map fst es)) LO) as [OX BX].
  destruct (C48_where dict_attr E _ _ _ _ _ (0 <? d) l s se sr HW OX OE W) as [B ->]; auto.
  - eapply (unpack_leaves consts_wf).
    + intros e0 i k Hc. unfold project_tuple. assert (K : consts_wf (Nat.iter i PSecond e0)) by (induction i; simpl; auto).
      destruct (i + 1 <? k); simpl; auto.
    + assert (F : Forall consts_wf (map fst es)).
      { clear - CX E1. revert es E1. induction CX as [|o xs Ho _ IH]; intros es E1; cbn [mapM] in E1.
        - injection E1 as <-. constructor.
        - apply bind_ok in E1 as ([e l] & W1 & E1). apply bind_ok in E1 as (es' & E1 & Q). injection Q as <-. simpl. constructor; auto.
          destruct o; simpl in W1; try discriminate.
          + injection W1 as <- <-. inversion Ho; auto.
          + apply bind_ok in W1 as (l' & _ & W1). injection W1 as <- <-. inversion Ho; auto. }
      clear - F CE. revert e CE. induction F; intros e CE; simpl; auto. apply IHF. simpl. auto.
  - cbn [oden]. rewrite (nonempty_cond E e _ c v d S D V). reflexivity.
Qed.

(** The same where elements hold arrays, and where the position may hold
    slices: the result is the whole of [a[items]] or the whole of [empty]. *)
Theorem C50_or_empty_arrays (dict_attr : nat -> bool) (E : env) (e : phi) l s n items x empty r v d sr :
  or_empty dict_attr (OArr e (LVec s)) items empty n = Ok r -> getitem dict_attr items n (OArr e (LVec s)) = Ok x ->
  obj_ok dict_attr x -> obj_ok dict_attr empty -> env_wf E -> build_layout x = Ok l -> layout_deep dict_attr l ->
  (forall e, In e (obj_leaves x) \/ In e (obj_leaves empty) -> consts_wf e /\ steady e /\ unshadowed e) ->
  (forall m y, n + length items <= m -> y = e \/ In y (obj_leaves x) \/ In y (obj_leaves empty) ->
     ~ mentions (SX m) y /\ ~ In (SX m) (bsyms y)) ->
  den E e = Ok v -> vdim v 0 = Ok d -> oden E r = Ok sr ->
  build_layout empty = Ok l /\ exists sx se, oden E x = Ok sx /\ oden E empty = Ok se /\ sr = if 0 <? d then sx else se.
Proof.
  intros H G OX OE W B LD HF HN D V DR. destruct (or_empty_parts _ _ _ _ _ _ _ H) as (c & x' & S & G' & HW).
  rewrite G in G'. injection G' as <-.
  apply (C48_where_arrays dict_attr E _ x empty r _ (0 <? d) l sr HW); auto.
  - cbn [vec_size] in S. apply bind_ok in S as (q & Q & S). injection S as <-. apply mk_ok in Q as [-> _].
    intros m y Hm [Hy|[Hy|[<-|[]]]]; [apply HN; auto|apply HN; auto|]. destruct (HN m e Hm (or_introl eq_refl)) as [N1 N2].
    unfold f_gt. split; [|simpl; auto].
    intros [t T]. inversion T as [|? ? ? I1 H1]; subst. simpl in I1. destruct I1 as [<-|[<-|[]]]; inversion H1 as [|? ? ? I2 H2]; subst; simpl in I2; [tauto|].
    destruct I2 as [<-|[]]. apply N1. exists t. auto.
  - cbn [oden]. rewrite (nonempty_cond E e _ c v d S D V). reflexivity.
Qed.

(** * C51 *)

Lemma unambiguous_pairs t : (exists l, unambiguous_layout t = Ok l) <-> has_pair t = false.
Proof.
  induction t as [k|e IH|a _ b _]; simpl.
  - split; eauto.
  - rewrite <- IH. split; intros [l H]; [apply bind_ok in H as (l' & H & _); eauto|rewrite H; simpl; eauto].
  - split; [intros [l H]; discriminate|discriminate].
Qed.

Lemma check_signature_ok es : forall ins ts, mapM typ es = Ok ts ->
  (check_signature es ins = Ok tt <-> ts = ins /\ Forall (fun t => has_pair t = false) ins).
Proof.
  induction es as [|e es IH]; intros ins ts H; cbn [mapM] in H.
  - injection H as <-. destruct ins; simpl; split; [auto|auto|discriminate|intros [K _]; discriminate].
  - apply bind_ok in H as (t & T & H). apply bind_ok in H as (ts' & TS & H). injection H as <-.
    destruct ins as [|u ins]; simpl; [split; [discriminate|intros [K _]; discriminate]|]. rewrite T. cbn [bind]. split.
    + intros H. apply bind_ok in H as (l & L & H). apply bind_ok in H as (g & G & H). apply guard_ok, ty_eqb_eq in G. subst u.
      apply (IH _ _ TS) in H as [-> F]. split; auto. constructor; auto. apply unambiguous_pairs. eauto.
    + intros [K F]. injection K as -> ->. inversion F; subst. destruct (proj2 (unambiguous_pairs u)) as [l L]; auto.
      rewrite L. cbn [bind]. replace (ty_eqb u u) with true by (symmetry; apply ty_eqb_eq; auto). cbn [guard bind]. apply (IH _ _ TS). auto.
Qed.

(** [ext(fun, (ins, out))(args)] is accepted exactly if the arguments have the
    declared types, one for one, and no declared type has records. *)
Theorem C51_signature ins out f args ws ts :
  mapM wrap args = Ok ws -> mapM typ (map fst ws) = Ok ts ->
  ((exists r, extrinsic (Some ins) out f args = Ok r) <-> ts = ins /\ forall t, In t (out :: ins) -> has_pair t = false).
Proof.
  intros HW HT. unfold extrinsic, mk. rewrite HW. cbn [bind typ]. rewrite HT. cbn [bind]. split.
  - intros [r H]. apply bind_ok in H as ([] & C & H). apply bind_ok in H as (l & L & H). apply (check_signature_ok _ _ _ HT) in C as [-> C].
    split; auto. intros t [<-|Ht]; [apply unambiguous_pairs; eauto|]. rewrite Forall_forall in C. auto.
  - intros [-> H]. rewrite (proj2 (check_signature_ok _ _ _ HT)). 2: { split; auto. apply Forall_forall. intros t Ht. apply H. right. auto. }
    cbn [bind]. destruct (proj2 (unambiguous_pairs out)) as [l L]; [apply H; left; auto|]. rewrite L. cbn [bind]. eauto.
Qed.

Lemma check_signature_app pre a b : forall ins, mapM typ pre = Ok ins -> Forall (fun t => has_pair t = false) ins ->
  check_signature (pre ++ a) (ins ++ b) = check_signature a b.
Proof.
  induction pre as [|p pre IH]; intros ins HP Fi; cbn [mapM] in HP.
  - injection HP as <-. reflexivity.
  - apply bind_ok in HP as (t & T & HP). apply bind_ok in HP as (ts & TS & HP). injection HP as <-. inversion Fi; subst.
    simpl. rewrite T. cbn [bind]. destruct (proj2 (unambiguous_pairs t)) as [l L]; auto. rewrite L. cbn [bind].
    replace (ty_eqb t t) with true by (symmetry; apply ty_eqb_eq; auto). cbn [guard bind]. auto.
Qed.

(** The first argument of another type than declared is a TypeError; if there
    is none, too many and too few arguments are a ValueError. *)
Theorem C51_rejects args ws pre es ins rest out f :
  mapM wrap args = Ok ws -> map fst ws = pre ++ es -> mapM typ pre = Ok ins -> Forall (fun t => has_pair t = false) ins ->
  match es, rest with
  | [], [] => True
  | e :: _, u :: _ => forall t, typ e = Ok t -> has_pair t = false -> t <> u -> extrinsic (Some (ins ++ rest)) out f args = Err EType
  | _, _ => extrinsic (Some (ins ++ rest)) out f args = Err EValue
  end.
Proof.
  intros HW HM HP F. pose proof (check_signature_app pre es rest ins HP F) as K.
  destruct es as [|e es], rest as [|u us]; auto; [| |intros t T Ft N]; unfold extrinsic; rewrite HW; cbn [bind]; rewrite HM, K; try reflexivity.
  simpl. rewrite T. cbn [bind]. destruct (proj2 (unambiguous_pairs t)) as [l L]; auto. rewrite L. cbn [bind].
  destruct (ty_eqb t u) eqn:Q; [apply ty_eqb_eq in Q; congruence|]. reflexivity.
Qed.

(** The value of the result is what the function returns for the values of the
    arguments, in order, and it fails as the function fails. *)
Theorem C51_value (E : env) ins out f args (arrs : list arr) r :
  extrinsic ins out f args = Ok r -> Forall2 (fun o a => exists l, oden E o = Ok (SArr (VArr a) l)) args arrs ->
  exists l, unambiguous_layout out = Ok l /\ oden E r = let* a := ext_call f arrs in Ok (SArr (VArr a) l).
Proof.
  unfold extrinsic. intros H F. apply bind_ok in H as (ws & HW & H). apply bind_ok in H as (u & _ & H). apply bind_ok in H as (e & HE & H).
  apply bind_ok in H as (l & L & H). injection H as <-. apply mk_ok in HE as [-> _]. exists l. split; auto.
  assert (A : (let* vs := mapM (den E) (map fst ws) in mapM as_arr vs) = Ok arrs).
  { clear - HW F. revert ws HW. induction F as [|o a args arrs (l & H) _ IH]; intros ws HW; cbn [mapM] in HW.
    - injection HW as <-. reflexivity.
    - apply oden_wrap in H as (e & W & D). rewrite W in HW. cbn [bind] in HW. apply bind_ok in HW as (ws' & HW & Q). injection Q as <-.
      cbn [map mapM fst]. rewrite D. cbn [bind]. pose proof (IH ws' HW) as K. apply bind_ok in K as (vs & V & K). rewrite V. cbn [bind mapM as_arr].
      rewrite K. reflexivity. }
  apply bind_ok in A as (vs & V & A).
  assert (T : to_array (PExt out f (map fst ws)) l = OArr (PExt out f (map fst ws)) l).
  { clear - L. destruct out; simpl in L; [injection L as <-; reflexivity|apply bind_ok in L as (l' & _ & L); injection L as <-; reflexivity|discriminate]. }
  rewrite T. cbn [oden den]. rewrite V. cbn [bind]. rewrite A. cbn [bind]. destruct (ext_call f arrs); reflexivity.
Qed.

(** * C52 *)

(** [eval] refuses, with a ValueError and without running a backend, exactly
    the expressions of which some free symbol is not given; otherwise the result
    is the backend's. *)
Theorem C52_refuses {A} (run : phi -> env -> res A) (e : phi) (dom : list sym) (E : env) :
  ((exists s, In s (fsyms e) /\ ~ In s dom) -> eval_array run e dom E = Err EValue) /\
  ((forall s, In s (fsyms e) -> In s dom) -> eval_array run e dom E = run e E).
Proof.
  unfold eval_array. destruct (forallb _ _) eqn:Q; cbn [guard bind].
  - split; auto. intros (s & Hs & N). rewrite forallb_forall in Q. specialize (Q s Hs). apply smem_In in Q. tauto.
  - split; auto. intros H. exfalso. rewrite <- not_true_iff_false in Q. apply Q. apply forallb_forall. intros s Hs. apply smem_In. auto.
Qed.

(** What it accepts does not fail for a missing symbol. *)
Theorem C52_bound (e : phi) (dom : list sym) (E : env) :
  (forall f l, ext_call f l <> Err EUnbound) -> hygienic e -> (forall s, In s dom -> E s <> None) ->
  eval_array (fun e E => den E e) e dom E <> Err EUnbound.
Proof.
  intros HX HY HD. unfold eval_array. destruct (forallb _ _) eqn:Q; cbn [guard bind]; [|discriminate].
  apply no_unbound; auto. intros s Hs. apply HD. rewrite forallb_forall in Q. apply smem_In. auto.
Qed.

(** An index used outside of its comprehension is refused. *)
Theorem C52_index {A} (run : phi -> env -> res A) (e : phi) (dom : list nat) (E : env) i :
  hygienic e -> free_in (SX i) e -> eval_array run e (map SV dom) E = Err EValue.
Proof.
  intros HY HF. apply C52_refuses. exists (SX i). split.
  - apply (isfree_tfree e (SX i) HY). apply free_in_isfree. auto.
  - intros H. apply in_map_iff in H as (x & K & _). discriminate.
Qed.

End Props.

Section Samples.
#[local] Existing Instance zfloat.
#[local] Existing Instance no_externs.

(** a.or_empty(0, 5.0) for an array of floats *)
Definition or_five : res obj :=
  or_empty (fun _ => false) (OArr arg0 (LVec LAtom)) [IAt (ORaw (ascalar (SI 0)))] (OArr (cf 5) LAtom) 0.
Definition or_five_prog : phi := PWhere (PBin BLt (p_int 0) (PDim arg0 0)) (PGet arg0 (p_int 0)) (cf 5).

Example C50_example :
  or_five = Ok (OArr or_five_prog LAtom) /\ layout_ok (fun _ => false) LAtom /\ lvecs LAtom = 0 /\
  env_wf E0 /\ env_wf E_ /\ consts_wf arg0 /\ consts_wf (cf 5) /\
  den E0 arg0 = Ok (VArr (farr [3] [10; 20; 30]%Z)) /\ vgets (VArr (farr [3] [10; 20; 30]%Z)) [0%Z] = Ok (vscalar (SF (10%Z : F))) /\
  oden E0 (OArr or_five_prog LAtom) = Ok (SArr (vscalar (SF (10%Z : F))) LAtom) /\
  den E_ arg0 = Ok (VArr (farr [0] [])) /\ (exists w, vgets (VArr (farr [0] [])) [0%Z] = Ok w) /\
  oden E_ (OArr or_five_prog LAtom) = Ok (SArr (vscalar (SF (5%Z : F))) LAtom).
Proof.
  split; [vm_compute; reflexivity|]. split; [exact I|]. split; [reflexivity|].
  split. { apply env_wf_upd; [intros s v Q; discriminate|]. split; [reflexivity|]. repeat constructor. }
  split. { apply env_wf_upd; [intros s v Q; discriminate|]. split; [reflexivity|]. repeat constructor. }
  split; [exact I|]. split; [repeat split; repeat constructor|]. repeat split; try (vm_compute; reflexivity). eexists. vm_compute. reflexivity.
Qed.

(** On an array with no elements the code compiled for NumPy computes both
    sides of the [where], and raises. *)
Theorem C50_numpy_refuted :
  exists r y, or_five = Ok (OArr r LAtom) /\ lower (with_reductions true) same_sizes 20 r = Ok y /\
    den E_ r = Ok (vscalar (SF (5%Z : F))) /\ @yeval zfloat no_externs edge_pads R_ y = Err EShape.
Proof. exists or_five_prog, (red_code true or_five_prog). repeat split; vm_compute; reflexivity. Qed.

(** a.or_empty(0, b) for a matrix of floats [a] and a vector [b] *)
Example C50_arrays_example :
  let ta := TVec (TVec (TScalar KFloat)) in
  let a := PStore (SV 0) ta in let b := PStore (SV 1) (TVec (TScalar KFloat)) in
  let vb := VArr (farr [2] [7; 8]%Z) in
  let E := fun va => upd (upd empty_env (SV 0) (VArr va)) (SV 1) vb in
  let x := OArr (PGet a (p_int 0)) (LVec LAtom) in let empty := OArr b (LVec LAtom) in
  exists r, or_empty (fun _ => false) (OArr a (LVec (LVec LAtom))) [IAt (ORaw (ascalar (SI 0)))] empty 0 = Ok r /\
  getitem (fun _ => false) [IAt (ORaw (ascalar (SI 0)))] 0 (OArr a (LVec (LVec LAtom))) = Ok x /\
  obj_ok (fun _ => false) x /\ obj_ok (fun _ => false) empty /\ build_layout x = Ok (LVec LAtom) /\ layout_deep (fun _ => false) (LVec LAtom) /\
  (forall e, In e (obj_leaves x) \/ In e (obj_leaves empty) -> consts_wf e /\ steady e /\ unshadowed e) /\
  (forall m y, 1 <= m -> y = a \/ In y (obj_leaves x) \/ In y (obj_leaves empty) -> ~ mentions (SX m) y /\ ~ In (SX m) (bsyms y)) /\
  oden (E (farr [2; 2] [1; 2; 3; 4]%Z)) r = Ok (SArr (VArr (farr [2] [1; 2]%Z)) (LVec LAtom)) /\
  oden (E (farr [0; 2] [])) r = Ok (SArr vb (LVec LAtom)).
Proof.
  cbv zeta. eexists. split; [reflexivity|]. split; [reflexivity|].
  split; [exact I|]. split; [exact I|]. split; [reflexivity|]. split; [exact I|]. split.
  { intros e [[<-|[]]|[<-|[]]]; [split; [split; [exact I|split; [reflexivity|constructor; [reflexivity|constructor]]]|]|split; [exact I|]];
      (split; [|apply distinct_unshadowed, distinctb_sound; reflexivity]); apply steady_base; intros i H; simpl in H; intuition discriminate. }
  split.
  { assert (MS : forall m x t, ~ mentions (SX m) (PStore (SV x) t)).
    { intros m x t [u H]. inversion H as [|? ? ? I1 H1]; subst. destruct I1. }
    intros m y Hm [->|[[<-|[]]|[<-|[]]]]; (split; [|simpl; auto]); auto.
    intros [u H]. inversion H as [|? ? ? I1 H1]; subst. simpl in I1. destruct I1 as [<-|[<-|[]]]; [eapply MS; eexists; eauto|].
    inversion H1 as [|? ? ? I2 H2]; subst. destruct I2. }
  split; reflexivity.
Qed.

(** ext(fun, ((Vec(Float), Int), Float)) on a vector and a number; a call with
    the arguments exchanged, and calls with one and with three arguments *)
Definition second_of : Externs := fun _ l => match l with [a; b] => Ok b | _ => Err EValue end.
Example C51_example :
  let ins := [TVec (TScalar KFloat); TScalar KInt] in
  let x := OArr arg0 (LVec LAtom) in let k := ORaw (ascalar (SI 4)) in
  let call := extrinsic (Some ins) (TScalar KInt) 3 in
  (exists r, call [x; k] = Ok r /\ @oden zfloat second_of E0 r = Ok (SArr (vint 4) LAtom)) /\
  call [k; x] = Err EType /\ call [x] = Err EValue /\ call [x; k; k] = Err EValue /\
  (exists r, extrinsic None (TScalar KInt) 3 [x] = Ok r /\ @oden zfloat second_of E0 r = Err EValue).
Proof.
  cbv zeta. split; [eexists; split; reflexivity|]. repeat split; try reflexivity.
  eexists; split; reflexivity.
Qed.

(** What the function returns is not compared with the declared type. *)
Theorem C51_result_refuted :
  exists (EX : Externs) r e v, extrinsic (Some [TVec (TScalar KFloat); TScalar KInt]) (TScalar KFloat) 3
      [OArr arg0 (LVec LAtom); ORaw (ascalar (SI 4))] = Ok r /\ r = OArr e LAtom /\
    typ e = Ok (TScalar KFloat) /\ @den zfloat EX E0 e = Ok v /\ ~ has_type v (TScalar KFloat).
Proof.
  exists second_of. eexists. eexists. eexists. split; [reflexivity|]. split; [reflexivity|]. split; [reflexivity|].
  split; [reflexivity|]. intros [_ H]. discriminate H.
Qed.

(** Without a declared signature an array of records is accepted as an
    argument. *)
Theorem C51_unsigned_refuted :
  exists (EX : Externs) r e v t, typ e = Ok t /\ has_pair t = true /\ extrinsic None (TScalar KInt) 3 [OArr e (LVec (LPos [LAtom; LAtom]))] = Ok r /\
    @den zfloat EX (upd empty_env (SV 0) v) e = Ok v /\ (forall l, @ext_call zfloat EX 3 l <> Err EType) /\
    @oden zfloat EX (upd empty_env (SV 0) v) r = Err EType.
Proof.
  exists second_of. eexists. exists (PStore (SV 0) (TVec (TPair (TScalar KInt) (TScalar KInt)))), (VPair (VArr (iarr [1] [1%Z])) (VArr (iarr [1] [2%Z]))).
  eexists. split; [reflexivity|]. split; [reflexivity|]. split; [reflexivity|]. split; [reflexivity|].
  split; [|reflexivity]. intros [|a [|b [|c l]]]; discriminate.
Qed.

(** x + y with [x] given, with both given, and an element of a vector at an
    index that is not bound *)
Example C52_example :
  let x := PStore (SV 0) (TScalar KInt) in let y := PStore (SV 1) (TScalar KInt) in
  let E := upd (upd empty_env (SV 0) (vint 3)) (SV 1) (vint 4) in
  let run := fun (e : phi) (E : env) => den E e in
  hygienic (PBin BAdd x y) /\ hygienic (PGet arg0 (p_at 7)) /\ free_in (SX 7) (PGet arg0 (p_at 7)) /\
  eval_array run (PBin BAdd x y) [SV 0] E = Err EValue /\ eval_array run (PBin BAdd x y) [SV 0; SV 1] E = Ok (vint 7) /\
  eval_array run (PGet arg0 (p_at 7)) [SV 0] E = Err EValue.
Proof.
  cbv zeta. split; [apply unshadowed_hygienic, distinct_unshadowed, distinctb_sound; reflexivity|].
  split; [apply unshadowed_hygienic, distinct_unshadowed, distinctb_sound; reflexivity|].
  split; [apply free_in_isfree; eapply (free_sub _ _ 1); [reflexivity|reflexivity|apply free_sym; reflexivity|simpl; tauto]|]. repeat split.
Qed.
End Samples.

Print Assumptions C50_or_empty.
Print Assumptions C50_or_empty_arrays.
Print Assumptions C50_numpy_refuted.
Print Assumptions C51_signature.
Print Assumptions C51_rejects.
Print Assumptions C51_value.
Print Assumptions C51_result_refuted.
Print Assumptions C51_unsigned_refuted.
Print Assumptions C52_refuses.
Print Assumptions C52_bound.
Print Assumptions C52_index.
