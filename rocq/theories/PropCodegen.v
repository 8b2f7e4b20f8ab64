(** Properties C02, C04, C05, C19 for compiled array code. *)
From Verif Require Import Base Scalar Tensor Types Sym Phi Den Term PhiTerm DenFree SpecPhi Lining TypesFacts Typing DenWf Naive
  Sizes ClipShift NdOps NdFacts Yarr Axial AxialFacts AxialOps Codegen IndexOps YOps CodegenSafe CodegenGet CodegenCtx
  CodegenCases CodegenAxes CodegenCorrect CodegenSub CodegenGo FastPad Compile StrictCode Sample PropAxes.

Section Props.
Context {FO : FloatOps} {EX : Externs}.

(** * C02: loops of array code *)
Section Fold.
Context {PO : PadOps}.

Theorem C02_array_code (r : yenv) c size acc init body sz z v :
  yeval r size = Ok (YA sz) -> as_int sz = Ok z ->
  (yeval r (YFold c size acc init body) = Ok v <->
   exists vs : nat -> yval,
     yeval r init = Ok (vs 0) /\
     (forall k, (Z.of_nat k < z)%Z ->
        yeval (upd (upd r (SV acc) (vs k)) (SV c) (YA (ascalar (SI (Z.of_nat k))))) body = Ok (vs (S k))) /\
     v = vs (Z.to_nat z)).
Proof.
  intros Hs Hz. cbn [yeval]. rewrite Hs. cbn [bind ya]. rewrite Hz. cbn [bind].
  set (f := fun k v => yeval (upd (upd r (SV acc) v) (SV c) (YA (ascalar (SI (Z.of_nat k))))) body).
  assert (G : forall n s a b, iter_res f s n a = Ok b <->
     exists vs : nat -> yval, vs 0 = a /\ (forall k, k < n -> f (s + k) (vs k) = Ok (vs (S k))) /\ b = vs n).
  { induction n as [|n IH]; intros s a b; cbn [iter_res].
    - split.
      + intros H. injection H as <-. exists (fun _ => a). repeat split; auto. lia.
      + intros (vs & <- & _ & ->). reflexivity.
    - split.
      + intros H. apply bind_ok in H as (a' & H1 & H2). apply IH in H2 as (vs & <- & H2 & ->).
        exists (fun k => match k with 0 => a | S k => vs k end). split; auto. split; auto.
        intros [|k] Hk; [rewrite Nat.add_0_r; auto|]. rewrite <- Nat.add_succ_comm. apply H2. lia.
      + intros (vs & <- & H & ->). pose proof (H 0 ltac:(lia)) as H0. rewrite Nat.add_0_r in H0.
        rewrite H0. cbn [bind]. apply IH. exists (fun k => vs (S k)). split; auto. split; auto.
        intros k Hk. rewrite Nat.add_succ_comm. apply H. lia. }
  split.
  - intros H. apply bind_ok in H as (v0 & H0 & H). apply G in H as (vs & <- & H & ->).
    exists vs. split; auto. split; auto. intros k Hk. apply (H k). lia.
  - intros (vs & H0 & H & ->). rewrite H0. cbn [bind]. apply G. exists vs. split; auto. split; auto.
    intros k Hk. apply H. lia.
Qed.

(** In particular a count that is not positive gives the initial value. *)
Theorem C02_array_code_zero (r : yenv) c size acc init body sz z :
  yeval r size = Ok (YA sz) -> as_int sz = Ok z -> (z <= 0)%Z ->
  yeval r (YFold c size acc init body) = yeval r init.
Proof.
  intros Hs Hz Hn. cbn [yeval]. rewrite Hs. cbn [bind ya]. rewrite Hz. cbn [bind].
  replace (Z.to_nat z) with 0 by lia. destruct (yeval r init); reflexivity.
Qed.

(** * C04: the two lowerings of an access *)

(** [a[:, item, :]] *)
Theorem C04_take (r : yenv) y yi (a item : arr) u n v :
  yeval r y = Ok (YA a) -> yeval r yi = Ok (YA item) ->
  arr_wf a -> ashape a = u ++ n :: v -> 1 <= n -> akind item = KInt ->
  exists b, yeval r (YTake y (repeat None (length u) ++ Some yi :: repeat None (length v))) = Ok (YA b) /\
    akind b = akind a /\ ashape b = u ++ ashape item ++ v /\
    forall i q p, inb u i -> inb (ashape item) q -> inb v p ->
      exists k, k < n /\ Z.of_nat k = Z.min (Z.max (int_of (get item q)) 0) (Z.of_nat n - 1) /\
        get b (i ++ q ++ p) = get a (i ++ k :: p).
Proof.
  intros H1 H2 W S Hn K.
  assert (M : forall m, mapM (omapM (fun y => let* w := yeval r y in ya w)) (repeat None m) = Ok (repeat None m)).
  { induction m; simpl; auto. rewrite IHm. reflexivity. }
  assert (MA : mapM (omapM (fun y => let* w := yeval r y in ya w)) (repeat None (length u) ++ Some yi :: repeat None (length v))
               = Ok (repeat None (length u) ++ Some item :: repeat None (length v))).
  { induction (length u) as [|m IH]; cbn [repeat app mapM omapM bind].
    - rewrite H2. cbn [bind ya]. rewrite M. reflexivity.
    - rewrite IH. reflexivity. }
  assert (TN : forall m q, the_item q (repeat None m) = Some (@None (nat * arr))) by (induction m; simpl; auto).
  assert (TI : forall m q, the_item q (repeat None m ++ Some item :: repeat None (length v)) = Some (Some (q + m, item))).
  { induction m as [|m IH]; intros q; cbn [repeat app the_item].
    - rewrite TN. rewrite Nat.add_0_r. reflexivity.
    - rewrite IH. do 3 f_equal. lia. }
  assert (R : arank a = length u + Datatypes.S (length v)) by (unfold arank; rewrite S, app_length; auto).
  assert (NT : nth (length u) (ashape a) 0 = n) by (rewrite S, app_nth2, Nat.sub_diag; auto).
  cbn [yeval]. rewrite H1, MA. cbn [bind ya]. unfold nd_take.
  rewrite app_length. cbn [length]. rewrite !repeat_length, R, Nat.eqb_refl. cbn [guard bind].
  rewrite (TI (length u) 0). rewrite Nat.add_0_l. unfold nd_take1. rewrite NT, R, K.
  assert ((length u <? length u + Datatypes.S (length v)) = true) as -> by (apply Nat.ltb_lt; lia).
  assert ((0 <? n) = true) as -> by (apply Nat.ltb_lt; lia). cbn [kind_eqb guard bind orb].
  eexists. split; [reflexivity|]. cbn [akind ashape tab].
  assert (SH : firstn (length u) (ashape a) ++ ashape item ++ skipn (Datatypes.S (length u)) (ashape a) = u ++ ashape item ++ v).
  { rewrite S, firstn_app_exact, skipn_S_app by auto. reflexivity. }
  split; [reflexivity|]. split; [exact SH|]. intros i q p Hi Hq Hp.
  exists (clip (int_of (get item q)) n). split; [apply clip_lt; lia|]. split; [unfold clip; lia|].
  pose proof (inb_length _ _ Hi) as Li. pose proof (inb_length _ _ Hq) as Lq.
  rewrite get_tab.
  2:{ rewrite SH. apply inb_app; [auto|]. split; auto. apply inb_app; auto. }
  rewrite firstn_app_exact, skipn_app_exact by auto. rewrite firstn_app_exact by (unfold arank; auto).
  rewrite app_assoc, skipn_app_exact by (rewrite app_length; unfold arank; auto). reflexivity.
Qed.

(** [take_along_axis] with an index array of the target's other sizes *)
Theorem C04_gather (r : yenv) y yi (a item : arr) u n m v :
  yeval r y = Ok (YA a) -> yeval r yi = Ok (YA item) ->
  arr_wf a -> ashape a = u ++ n :: v -> 1 <= n -> akind item = KInt -> ashape item = u ++ m :: v ->
  exists b, yeval r (YGather (length u) y yi) = Ok (YA b) /\
    akind b = akind a /\ ashape b = u ++ m :: v /\
    forall i j p, inb u i -> j < m -> inb v p ->
      exists k, k < n /\ Z.of_nat k = Z.min (Z.max (int_of (get item (i ++ j :: p))) 0) (Z.of_nat n - 1) /\
        get b (i ++ j :: p) = get a (i ++ k :: p).
Proof.
  intros H1 H2 W S Hn K SI_. cbn [yeval]. rewrite H1, H2. cbn [bind ya]. unfold nd_gather.
  assert (R : arank a = length u + Datatypes.S (length v)) by (unfold arank; rewrite S, app_length; auto).
  assert (RI : arank item = length u + Datatypes.S (length v)) by (unfold arank; rewrite SI_, app_length; auto).
  assert (NT : nth (length u) (ashape a) 0 = n) by (rewrite S, app_nth2, Nat.sub_diag; auto).
  rewrite R, RI, NT, K, Nat.eqb_refl.
  assert ((length u <? length u + Datatypes.S (length v)) = true) as -> by (apply Nat.ltb_lt; lia).
  assert ((0 <? n) = true) as -> by (apply Nat.ltb_lt; lia). cbn [kind_eqb guard bind orb].
  assert (ZS : forall l, zip_bdim l l = Ok l).
  { induction l as [|x l IH]; simpl; auto. unfold bdim. rewrite Nat.eqb_refl. cbn [bind]. rewrite IH. reflexivity. }
  assert (SN : set_nth (length u) 1 (ashape a) = u ++ 1 :: v).
  { rewrite S. replace (length u) with (length u + 0) at 1 by lia. rewrite set_nth_app_r. reflexivity. }
  rewrite SN, SI_, (zip_bdim_app u u (1 :: v) (m :: v) u (m :: v)); auto.
  2:{ cbn [zip_bdim]. unfold bdim. destruct (1 =? m) eqn:Q.
      - apply Nat.eqb_eq in Q. subst m. cbn [bind]. rewrite ZS. reflexivity.
      - cbn [Nat.eqb bind]. rewrite ZS. reflexivity. }
  cbn [bind]. eexists. split; [reflexivity|]. split; [reflexivity|]. split; [reflexivity|]. intros i j p Hi Hj Hp.
  exists (clip (int_of (get item (i ++ j :: p))) n). split; [apply clip_lt; lia|]. split; [unfold clip; lia|].
  pose proof (inb_length _ _ Hi) as Li. pose proof (inb_length _ _ Hp) as Lp.
  assert (HB : inb (u ++ m :: v) (i ++ j :: p)).
  { apply inb_app; [auto|]. split; auto. apply inb_cons; auto. }
  rewrite get_tab by exact HB.
  rewrite !bidx_full by (rewrite ?S, !app_length; simpl; lia).
  rewrite (bzip_same (u ++ m :: v)) by exact HB.
  rewrite S, bzip_app by auto. cbn [bzip]. rewrite (bzip_same u), (bzip_same v) by auto.
  f_equal. rewrite <- Li. replace (length i) with (length i + 0) by lia. rewrite set_nth_app_r. reflexivity.
Qed.
End Fold.

(** * C05: slice, then pad *)

(** Positions [i] of the leading axes and [j] of the sliced one, as an
    assignment. *)
Definition sizes_at (u : list nat) (size : nat) (k : nat) : nat := if k =? length u then size else nth k u 0.

Lemma map_sizes (u : list nat) size : map (sizes_at u size) (seq 0 (length u)) = u.
Proof.
  transitivity (map (fun k => nth k u 0) (seq 0 (length u))); [|apply map_nth_seq].
  apply map_ext_in. intros k Hk. apply in_seq in Hk. unfold sizes_at. destruct (Nat.eqb_spec k (length u)); auto. lia.
Qed.

Section PadSlice.
Context {PO : PadOps}.
Variable padk : kind -> bool.
Variable pade : bool.
Hypothesis PAD : pad_spec padk pade.

Lemma pad_slice_arrays X r y ysh ylo yhi ysz y' (a : arr) u n v d lo hi size :
  pad_slice_get y (length u) ysh ylo yhi ysz = Ok y' ->
  runs X r y a -> runs X r ysh (ascalar (SI d)) -> runs X r ylo (ascalar (SI lo)) -> runs X r yhi (ascalar (SI hi)) ->
  runs X r ysz (ascalar (SI (Z.of_nat size))) ->
  arr_wf a -> ashape a = u ++ n :: v -> 1 <= size -> 1 <= n -> (0 <= lo)%Z -> (0 <= hi <= Z.of_nat n - 1)%Z ->
  padk (akind a) = true -> pade = true \/ Forall (lt 0) (ashape a) ->
  exists b, yeval r y' = Ok (YA b) /\ akind b = akind a /\ ashape b = u ++ size :: v /\
    forall i j p, inb u i -> j < size -> inb v p ->
      get b (i ++ j :: p) = get a (i ++ Z.to_nat (Z.min (Z.max (Z.of_nat j + d) lo) hi) :: p).
Proof.
  intros H Ya Y1 Y2 Y3 Y4 W S Hs Hn Hlo Hhi PK PE.
  set (m := length u). set (ax := seq 0 m). set (N0 := sizes_at u size).
  set (N := fun k => if k <=? m then N0 k else 1).
  assert (MN : map N ax = u).
  { rewrite <- (map_sizes u size). apply map_ext_in. intros k Hk. apply in_seq in Hk. unfold N.
    destruct (Nat.leb_spec k m); auto. lia. }
  assert (Nm : N m = size).
  { unfold N, N0, sizes_at. rewrite Nat.leb_refl. fold m. rewrite Nat.eqb_refl. auto. }
  set (At := section_at a ax (n :: v)).
  set (A' := fun s => tab (akind a) v (fun p => get a (map s ax ++ clip (Z.min (Z.max (Z.of_nat (s m) + d) lo) hi) n :: p))).
  destruct (pad_slice_ok padk pade PAD N (ax ++ [m]) X r (mkAxial ax y) a n v (akind a) m At A' ysh ylo yhi ysz d lo hi y')
    as (b & Yb & F); auto.
  - cbn [ax_expr ax_axes]. unfold ax. rewrite seq_length. exact H.
  - apply section_frep; auto. rewrite MN. auto.
  - rewrite Nm. exact Y4.
  - lia.
  - destruct PE as [PE|PE]; [left; auto|right]. rewrite S in PE. apply Forall_app in PE as [P1 P2]. apply Forall_inv_tail in P2.
    split; auto. intros j. unfold N. destruct (Nat.leb_spec j m); [|lia].
    unfold N0, sizes_at. destruct (Nat.eqb_spec j (length u)); [lia|]. rewrite Forall_forall in P1. apply P1. apply nth_In.
    unfold m in *. lia.
  - intros s Hw. split; [apply nd_tab_wf; auto|]. split; [reflexivity|]. split; [reflexivity|]. intros p Hp.
    unfold A', At, section_at. rewrite !get_tab; auto. apply inb_cons. split; auto. apply clip_lt. lia.
  - exists b. split; [apply Yb; intros ? ?; auto|]. split; [apply F|]. pose proof (fr_shape _ _ _ _ _ _ _ _ F) as SB.
    assert (M : forall (f : nat -> nat) c l, map (fun i => if all_axes i then f i else c) l = map f l) by reflexivity.
    rewrite M, map_app in SB. cbn [ax_axes] in SB. rewrite MN in SB. cbn [map] in SB. rewrite Nm, <- app_assoc in SB.
    split; [exact SB|]. intros i j p Hi Hj Hp.
    pose proof (inb_length _ _ Hi) as Li.
    set (s := fun k => if k =? m then j else nth k i 0).
    assert (MS : map s ax = i).
    { rewrite <- (map_nth_seq i). rewrite Li. apply map_ext_in. intros k Hk. apply in_seq in Hk. unfold s.
      destruct (Nat.eqb_spec k m); auto. lia. }
    assert (Sm : s m = j) by (unfold s; rewrite Nat.eqb_refl; auto).
    assert (LT : forall x, In x (ax ++ [m]) -> s x < N x).
    { intros x Hx. apply in_app_or in Hx as [Hx|[<-|[]]]; [|rewrite Sm, Nm; auto].
      apply in_seq in Hx. unfold s, N, N0, sizes_at. destruct (Nat.eqb_spec x m); [lia|].
      destruct (Nat.leb_spec x m); [|lia]. destruct (Nat.eqb_spec x (length u)); [unfold m in *; lia|].
      unfold m in *. apply inb_nth; auto. lia. }
    assert (HW : wv N (ax ++ [m]) s) by (intros x Hx; specialize (LT x Hx); lia).
    pose proof (fr_get _ _ _ _ _ _ _ _ F s HW (fun x Hx _ => LT x Hx) p Hp) as Q.
    rewrite M, map_app in Q. cbn [ax_axes map] in Q. rewrite MS, Sm, <- app_assoc in Q.
    cbn [app] in Q. rewrite Q. unfold A'. rewrite get_tab by auto. rewrite MS, Sm. f_equal. f_equal. f_equal. unfold clip. lia.
Qed.
End PadSlice.

(** With the reference edge padding, for any array. *)
Theorem C05_pad_slice X r y ysh ylo yhi ysz y' (a : arr) u n v d lo hi size :
  let PO : PadOps := nd_edge_pad in
  pad_slice_get y (length u) ysh ylo yhi ysz = Ok y' ->
  runs X r y a -> runs X r ysh (ascalar (SI d)) -> runs X r ylo (ascalar (SI lo)) -> runs X r yhi (ascalar (SI hi)) ->
  runs X r ysz (ascalar (SI (Z.of_nat size))) ->
  arr_wf a -> ashape a = u ++ n :: v -> 1 <= size -> 1 <= n -> (0 <= lo)%Z -> (0 <= hi <= Z.of_nat n - 1)%Z ->
  exists b, yeval r y' = Ok (YA b) /\ akind b = akind a /\ ashape b = u ++ size :: v /\
    forall i j p, inb u i -> j < size -> inb v p ->
      get b (i ++ j :: p) = get a (i ++ Z.to_nat (Z.min (Z.max (Z.of_nat j + d) lo) hi) :: p).
Proof.
  intros PO H Ya Y1 Y2 Y3 Y4 W S Hs Hn Hlo Hhi.
  exact (@pad_slice_arrays nd_edge_pad (fun _ => true) true ref_pad_spec X r y ysh ylo yhi ysz y' a u n v d lo hi size
           H Ya Y1 Y2 Y3 Y4 W S Hs Hn Hlo Hhi eq_refl (or_introl eq_refl)).
Qed.

(** With the padding of the NumPy backend, for float arrays with elements. *)
Theorem C05_pad_slice_numpy garbage X r y ysh ylo yhi ysz y' (a : arr) u n v d lo hi size :
  let PO : PadOps := fast_edge_pad garbage in
  pad_slice_get y (length u) ysh ylo yhi ysz = Ok y' ->
  runs X r y a -> runs X r ysh (ascalar (SI d)) -> runs X r ylo (ascalar (SI lo)) -> runs X r yhi (ascalar (SI hi)) ->
  runs X r ysz (ascalar (SI (Z.of_nat size))) ->
  arr_wf a -> ashape a = u ++ n :: v -> Forall (lt 0) (ashape a) -> akind a = KFloat ->
  1 <= size -> (0 <= lo)%Z -> (0 <= hi <= Z.of_nat n - 1)%Z ->
  exists b, yeval r y' = Ok (YA b) /\ akind b = KFloat /\ ashape b = u ++ size :: v /\
    forall i j p, inb u i -> j < size -> inb v p ->
      get b (i ++ j :: p) = get a (i ++ Z.to_nat (Z.min (Z.max (Z.of_nat j + d) lo) hi) :: p).
Proof.
  intros PO H Ya Y1 Y2 Y3 Y4 W S P K Hs Hlo Hhi.
  assert (Hn : 1 <= n) by lia. rewrite <- K.
  refine (@pad_slice_arrays (fast_edge_pad garbage) (kind_eqb KFloat) false (numpy_pad_spec garbage) X r y ysh ylo yhi ysz y' a u n v d lo hi size
           H Ya Y1 Y2 Y3 Y4 W S Hs Hn Hlo Hhi _ (or_intror P)).
  rewrite K. reflexivity.
Qed.

(** * C19 *)

(** What the caller must provide: a well typed program whose occurrences of
    variables agree with [G], whose indices are ints, whose external functions
    return what they declare, and which binds every name at most once and not
    the name of an argument; arguments [X] of the types in [G]. *)
Definition well_formed (G : tctx) (X : list nat) (e : phi) : Prop :=
  (exists t, typ e = Ok t) /\ scoped G e /\ int_indices e /\ exts_ok e /\ fresh_binders (map SV X) e /\
  (forall s, G s <> None -> exists x, s = SV x /\ In x X).
Definition passed (X : list nat) (E : env) (r : yenv) : Prop :=
  (forall i, E (SX i) = None) /\
  forall x, In x X -> exists u, E (SV x) = Some u /\ val_wf u /\ r (SV x) = Some (pack (vleaves u)).

(** For every combination of the access lowerings; folds are compiled to loops or
    to reductions of an axis, the latter for floats whose sums can be reordered;
    reductions ([reduce_safe]) are by an associative operation with identity.
    [strict] asks for the axes checks the code leaves out. *)
Theorem C19_compiled fl orc fuel e y (G : tctx) (E : env) (r : yenv) X v :
  let PO : PadOps := nd_edge_pad in
  (use_reductions fl = true -> float_laws) -> (use_einsum fl = true -> float_laws) -> strict fl = true ->
  lower fl orc fuel e = Ok y -> well_formed G X e -> passed X E r -> env_typed G E ->
  safe_all fl orc (fun _ => true) true (fun _ => 1) E e ->
  den E e = Ok v -> yeval r y = Ok (pack (vleaves v)).
Proof.
  intros PO RED EIN STR H ((t & T) & SC & II & EO & FB & DOM) [NX PS] ET SF D.
  eapply (@lower_correct FO EX nd_edge_pad fl orc _ _ ref_pad_spec STR EIN RED fuel e y G E r X t v); eauto.
Qed.

(** On NumPy: sliced arrays are float arrays with elements. *)
Theorem C19_compiled_numpy garbage fl orc fuel e y (G : tctx) (E : env) (r : yenv) X v :
  let PO : PadOps := fast_edge_pad garbage in
  (use_reductions fl = true -> float_laws) -> (use_einsum fl = true -> float_laws) -> strict fl = true ->
  lower fl orc fuel e = Ok y -> well_formed G X e -> passed X E r -> env_typed G E ->
  safe_all fl orc (kind_eqb KFloat) false (fun _ => 1) E e ->
  den E e = Ok v -> yeval r y = Ok (pack (vleaves v)).
Proof.
  intros PO RED EIN STR H ((t & T) & SC & II & EO & FB & DOM) [NX PS] ET SF D.
  eapply (@lower_correct FO EX (fast_edge_pad garbage) fl orc _ _ (numpy_pad_spec garbage) STR EIN RED fuel e y G E r X t v); eauto.
Qed.

(** What is compiled with the checks is what the code compiles. *)
Theorem C19_strict_is_code fl orc fuel e y :
  lower fl orc fuel e = Ok y -> lower (code_flags fl) orc fuel e = Ok y.
Proof.
  unfold lower. intros H. apply bind_ok in H as (a & Ha & H). rewrite (go_ref fl orc fuel _ _ _ _ Ha). exact H.
Qed.
End Props.

(** * Examples and counterexamples *)
Section Samples.
#[local] Existing Instance zfloat.
#[local] Existing Instance no_externs.

Definition no_sizes : oracle := mkOracle (fun _ _ => false) (fun _ _ => false) (fun _ => 0).
(** phi_to_yarr.py:25-35 without reductions and einsum *)
Definition loops_only (st : bool) : flags := mkFlags true true true false false st.
Definition fvec_ : ty := TVec (TScalar KFloat).
Definition arg0 : phi := PStore (SV 0) fvec_.
Definition idx_ (i : nat) : phi := PStore (SX i) (TScalar KInt).
Definition ci (z : Z) : phi := PConst (ascalar (SI z)).
Definition cf (z : Z) : phi := PConst (ascalar (SF (z : F))).
Definition G0 : tctx := upd empty_env (SV 0) fvec_.
Definition E0 : env := upd empty_env (SV 0) (VArr (farr [3] [10; 20; 30]%Z)).
Definition R0 : yenv := upd empty_env (SV 0) (YA (farr [3] [10; 20; 30]%Z)).

Example C02_array_code_example :
  @yeval zfloat no_externs edge_pads empty_env
    (YFold 0 (YConst (ascalar (SI 4))) 1 (YConst (ascalar (SI 0)))
       (ybin BAdd (ybin BMul (YVar 1 [(0, KInt)]) (YConst (ascalar (SI 2)))) (YVar 0 [(0, KInt)])))
  = Ok (YA (ascalar (SI 11))).
Proof. reflexivity. Qed.

Example C04_take_example :
  @yeval zfloat no_externs edge_pads empty_env
    (YTake (YConst (farr [2; 3] [1; 2; 3; 4; 5; 6]%Z)) [None; Some (YConst (iarr [2] [-4; 9]%Z))])
  = Ok (YA (farr [2; 2] [1; 3; 4; 6]%Z)).
Proof. vm_compute. reflexivity. Qed.

Example C04_gather_example :
  @yeval zfloat no_externs edge_pads empty_env
    (YGather 1 (YConst (farr [2; 3] [1; 2; 3; 4; 5; 6]%Z)) (YConst (iarr [2; 1] [-4; 9]%Z)))
  = Ok (YA (farr [2; 1] [1; 6]%Z)).
Proof. vm_compute. reflexivity. Qed.

(** array shifted by -1, read at 4 positions *)
Example C05_pad_slice_example :
  exists y', pad_slice_get (YConst (farr [3] [10; 20; 30]%Z)) 0 (yint (-1)) (yint 0) (yint 2) (yint 5) = Ok y' /\
    @yeval zfloat no_externs (fast_edge_pad (fun _ => 99%Z)) empty_env y' = Ok (YA (farr [5] [10; 10; 20; 30; 30]%Z)).
Proof. eexists. split; [reflexivity|]. vm_compute. reflexivity. Qed.

(** array(lambda i: fold(0.0, lambda k, acc: acc + a[i - 1], count=2), size=4) *)
Definition prog : phi :=
  PVec 0 (ci 4)
    (PFold 1 (ci 2) 2 (cf 0)
       (PBin BAdd (PStore (SV 2) (TScalar KFloat)) (PGet arg0 (PBin BSub (idx_ 0) (ci 1))))).

(** the code of a program *)
Definition code_of (st : bool) (e : phi) : yarr :=
  match lower (loops_only st) no_sizes 20 e with Ok y => y | Err _ => YTuple [] end.

Example C19_example :
  well_formed G0 [0] prog /\ passed [0] E0 R0 /\ env_typed G0 E0 /\
  safe_all (loops_only true) no_sizes (kind_eqb KFloat) false (fun _ => 1) E0 prog /\
  den E0 prog = Ok (VArr (farr [4] [20; 20; 40; 60]%Z)) /\
  exists y, lower (loops_only true) no_sizes 20 prog = Ok y /\
    @yeval zfloat no_externs (fast_edge_pad (fun _ => 99%Z)) R0 y = Ok (YA (farr [4] [20; 20; 40; 60]%Z)).
Proof.
  split; [|split; [|split; [|split; [|split]]]].
  - split; [eexists; reflexivity|]. split.
    { simpl. repeat match goal with
        | |- _ /\ _ => split | |- exists _, _ => eexists | |- arr_wf _ => apply ascalar_wf | |- _ = _ => reflexivity end. }
    split; [simpl; repeat split; auto|]. split; [simpl; repeat split; auto|].
    split; [simpl; intuition congruence|].
    intros s. unfold G0, upd, empty_env. destruct (sym_eqb s (SV 0)) eqn:Q; [|congruence].
    apply sym_eqb_eq in Q. subst. exists 0. simpl. auto.
  - split; [reflexivity|]. intros x [<-|[]]. exists (VArr (farr [3] [10; 20; 30]%Z)). split; [reflexivity|]. split; [|reflexivity].
    split; [reflexivity|]. repeat constructor.
  - intros s t v. unfold G0, E0, upd, empty_env. destruct (sym_eqb s (SV 0)); [|discriminate].
    intros H1 H2. injection H1 as <-. injection H2 as <-. split; [|reflexivity]. split; [reflexivity|]. repeat constructor.
  - unfold prog. intros [|f]; [exact I|]. cbn [safe]. split; [destruct f; exact I|]. intros v z HV HZ.
    injection HV as <-. injection HZ as <-. split; [lia|]. intros k Hk. destruct f as [|f]; [exact I|]. cbn [safe].
    split; [destruct f; exact I|]. split; [destruct f; exact I|]. split; [|split; discriminate]. intros v z j w HV HZ Hj _. injection HV as <-. injection HZ as <-.
    destruct f as [|f]; [exact I|]. cbn [safe]. split; [destruct f; exact I|]. destruct f as [|f]; [exact I|]. cbn [safe].
    split; [destruct f; exact I|]. split; [destruct f as [|[|f]]; simpl; auto|].
    intros v n HV HD. change (den _ arg0) with (Ok (VArr (farr [3] [10; 20; 30]%Z))) in HV. injection HV as <-.
    change (vdim _ 0) with (@Ok nat 3) in HD. injection HD as <-.
    assert (Q : exists sh, match_index_clipped_shift (PBin BSub (idx_ 0) (ci 1)) = Some (0, (Some sh, None, None)))
      by (eexists; vm_compute; reflexivity).
    destruct Q as (sh & Q). cbn [loops_only use_slice_pads]. rewrite Q. cbn [is_none andb].
    change (smem (SX 0) (free_indices arg0)) with false. rewrite andb_false_r. cbn [andb].
    split; [lia|]. split; [cbv; lia|]. split.
    + intros a Ha. injection Ha as <-. split; [reflexivity|]. right. split; [|repeat constructor].
      intros i. unfold set_asg. destruct (i =? 0); lia.
    + split; discriminate.
  - vm_compute. reflexivity.
  - exists (code_of true prog). split; vm_compute; reflexivity.
Qed.

(** Explicit bounds outside the array: [a[max(i - 2, -1)]] is compiled to an
    array of another size, with uninitialised contents. *)
Definition low_prog : phi := PVec 0 (ci 4) (PGet arg0 (PBin BMax (PBin BSub (idx_ 0) (ci 2)) (ci (-1)))).
Definition high_prog : phi := PVec 0 (ci 4) (PGet arg0 (PBin BMin (idx_ 0) (ci 5))).
Theorem C05_bounds_refuted :
  (exists y, lower (loops_only true) no_sizes 20 low_prog = Ok y /\
     den E0 low_prog = Ok (VArr (farr [4] [10; 10; 10; 20]%Z)) /\
     forall z, @yeval zfloat no_externs (fast_edge_pad (fun _ => z)) R0 y = Ok (YA (farr [1] [z]))) /\
  (exists y, lower (loops_only true) no_sizes 20 high_prog = Ok y /\
     den E0 high_prog = Ok (VArr (farr [4] [10; 20; 30; 30]%Z)) /\
     forall z, @yeval zfloat no_externs (fast_edge_pad (fun _ => z)) R0 y = Ok (YA (farr [3] [10; 20; 30]%Z))).
Proof.
  split; [exists (code_of true low_prog)|exists (code_of true high_prog)];
    (split; [vm_compute; reflexivity|]; split; [vm_compute; reflexivity|]; intros z; vm_compute; reflexivity).
Qed.

(** A shifted integer array becomes a float array on NumPy. *)
Definition int_prog : phi := PVec 0 (ci 4) (PGet (PConst (iarr [2] [5; 6]%Z)) (idx_ 0)).
Theorem C05_numpy_kind_refuted :
  exists y, lower (loops_only true) no_sizes 20 int_prog = Ok y /\
    den E0 int_prog = Ok (VArr (iarr [4] [5; 6; 6; 6]%Z)) /\
    @yeval zfloat no_externs edge_pads R0 y = Ok (YA (iarr [4] [5; 6; 6; 6]%Z)) /\
    forall z, @yeval zfloat no_externs (fast_edge_pad (fun _ => z)) R0 y = Ok (YA (farr [4] [5; 6; 6; 6]%Z)).
Proof.
  exists (code_of true int_prog). split; [vm_compute; reflexivity|]. split; [vm_compute; reflexivity|]. split; [vm_compute; reflexivity|].
  intros z. vm_compute. reflexivity.
Qed.

(** Records whose components depend on different indices are not given common
    axes by the code:
    array(lambda i: fold((a[i], 0.0), lambda k, acc: (acc[0] + 1, acc[1] + 1), count=2)[1], size=3)
    is compiled to an array of one element. *)
Definition rec_ : ty := TPair (TScalar KFloat) (TScalar KFloat).
Definition rec_prog : phi :=
  PVec 0 (ci 3) (PSecond (PFold 1 (ci 2) 2 (PCons (PGet arg0 (idx_ 0)) (cf 0))
    (PCons (PBin BAdd (PFirst (PStore (SV 2) rec_)) (cf 1)) (PBin BAdd (PSecond (PStore (SV 2) rec_)) (cf 1))))).
Theorem C19_records_refuted :
  exists y, lower (loops_only false) no_sizes 20 rec_prog = Ok y /\
    den E0 rec_prog = Ok (VArr (farr [3] [2; 2; 2]%Z)) /\
    @yeval zfloat no_externs edge_pads R0 y = Ok (YA (farr [1] [2]%Z)) /\
    lower (loops_only true) no_sizes 20 rec_prog = Err EAssert.
Proof. exists (code_of false rec_prog). repeat split; vm_compute; reflexivity. Qed.

(** A loop body that does not use the initial value does not compile. *)
Definition const_body_prog : phi := PVec 0 (ci 3) (PFold 1 (ci 2) 2 (PGet arg0 (idx_ 0)) (cf 7)).
Theorem C19_constant_body_refuted :
  den E0 const_body_prog = Ok (VArr (farr [3] [7; 7; 7]%Z)) /\
  lower (loops_only false) no_sizes 20 const_body_prog = Err EAssert.
Proof. split; vm_compute; reflexivity. Qed.
End Samples.

Print Assumptions C02_array_code.
Print Assumptions C02_array_code_zero.
Print Assumptions C04_take.
Print Assumptions C04_gather.
Print Assumptions C05_pad_slice.
Print Assumptions C05_pad_slice_numpy.
Print Assumptions C05_bounds_refuted.
Print Assumptions C05_numpy_kind_refuted.
Print Assumptions C19_compiled.
Print Assumptions C19_compiled_numpy.
Print Assumptions C19_strict_is_code.
Print Assumptions C19_records_refuted.
Print Assumptions C19_constant_body_refuted.
