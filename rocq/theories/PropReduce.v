(** Property C22: folds compiled to reductions of an axis. *)
From Coq Require Import ZArithRing InitialRing.
From Verif Require Import Base Scalar Tensor Types Sym Phi Den Term PhiTerm DenFree SpecPhi Lining TypesFacts Typing DenWf Naive
  Sizes ClipShift NdOps NdFacts Yarr Axial AxialFacts AxialOps Codegen IndexOps YOps CodegenSafe CodegenGet CodegenCtx
  CodegenCases CodegenAxes CodegenCorrect CodegenSub CodegenRed CodegenGo FastPad Compile StrictCode Sample PropAxes PropCodegen.

Section Props.
Context {FO : FloatOps} {EX : Externs}.

(** The operations a reduction is made of. *)
Definition op_of (r : rop) (a b : F) : F :=
  match r with RAdd => fadd a b | RMin => fmin a b | RMax => fmax a b end.
(** [init `op` (h 0 `op` (h 1 `op` ...))] with the terms of the axis combined first. *)
Inductive reduces (r : rop) (h : nat -> F) : nat -> F -> Prop :=
| red_empty : r = RAdd -> reduces r h 0 (f_of_Z 0)
| red_one : reduces r h 1 (h 0)
| red_more n x : 1 <= n -> reduces r h n x -> reduces r h (S n) (op_of r x (h n)).

Lemma fred_reduces r h : forall n x, reduces r h n x -> x = fred r n h.
Proof.
  induction 1 as [->| |n x Hn H IH]; auto.
  destruct n as [|n]; [lia|]. rewrite IH. cbn [fred]. rewrite (seq_S n), fold_left_app. simpl. destruct r; reflexivity.
Qed.

(** Whatever the recogniser accepts has the value of the initial value combined
    with the reduced axis, for every number of steps, if the element does not
    mention the accumulator. *)
Theorem C22_value (E : env) c acc size init body elem r z w (h : nat -> F) x :
  float_laws ->
  match_reduction_by_body body acc = Some (elem, r) ->
  c <> acc -> ~ free_in (SV acc) elem ->
  den_int E size z -> den E init = Ok (VArr (ascalar (SF w))) ->
  (forall k, (Z.of_nat k < z)%Z -> den (upd E (SV c) (vnat k)) elem = Ok (VArr (ascalar (SF (h k))))) ->
  reduces r h (Z.to_nat z) x ->
  den E (PFold c size acc init body) = Ok (VArr (ascalar (SF (op_of r w x)))).
Proof.
  intros LAWS M CA NF (v & DS & DZ) DI DE RX.
  apply fred_reduces in RX as RX'. subst x. set (n := Z.to_nat z) in *.
  cbn [den]. rewrite DS. cbn [bind].
  assert (VI : val_int v = Ok z) by (destruct v; [|discriminate]; unfold val_int, val_scalar in *; cbn [as_arr bind] in *; unfold as_int; rewrite DZ; reflexivity).
  rewrite VI. cbn [bind].
  change (acc_val E c acc init body n = Ok (VArr (ascalar (SF (op_of r w (fred r n h)))))).
  assert (RN : r <> RAdd -> 1 <= n) by (intros NR; inversion RX; try lia; contradiction).
  replace (op_of r w (fred r n h)) with (fop r w (fred r n h)) by (destruct r; reflexivity).
  rewrite (fred_init LAWS) by auto.
  assert (ALL : forall k, k <= n -> acc_val E c acc init body k =
     Ok (VArr (ascalar (SF (fold_left (fun s j => fop r s (h j)) (seq 0 k) w))))).
  { induction k as [|k IH]; intros Hk.
    - unfold acc_val. rewrite DI. reflexivity.
    - rewrite acc_val_S, IH by lia. cbn [bind]. rewrite seq_S, fold_left_app. cbn [fold_left].
      set (wk := fold_left _ (seq 0 k) w). change (0 + k) with k.
      assert (DE' : forall x, den (fold_env E c acc k x) elem = Ok (VArr (ascalar (SF (h k))))).
      { intros x. rewrite <- DE by lia. apply den_ext. intros s Hs. unfold fold_env.
        destruct (sym_eq_dec s (SV c)) as [->|]; [rewrite !upd_eq; auto|]. rewrite !upd_neq; auto.
        intros ->. apply NF. apply free_in_isfree. auto. }
      assert (DA : forall a0, is_store acc a0 = true -> den (fold_env E c acc k (VArr (ascalar (SF wk)))) a0 = Ok (VArr (ascalar (SF wk)))).
      { intros a0 Ha. destruct a0; try discriminate. simpl in Ha. apply sym_eqb_eq in Ha. subst s. cbn [den]. unfold fold_env.
        rewrite upd_neq by congruence. rewrite upd_eq. reflexivity. }
      apply reduction_elem in M as (a1 & b1 & -> & [(Ha & ->)|(Hb & ->)]); cbn [den].
      + rewrite (DA _ Ha), DE'. cbn [bind]. unfold lift2, val_scalar. cbn [as_arr bind]. rewrite !as_scalar_ascalar. cbn [bind].
        rewrite sem_rop. reflexivity.
      + rewrite (DA _ Hb), DE'. cbn [bind]. unfold lift2, val_scalar. cbn [as_arr bind]. rewrite !as_scalar_ascalar. cbn [bind].
        rewrite sem_rop. rewrite (fop_comm LAWS). reflexivity. }
  apply ALL. auto.
Qed.

(** The reduced axis of an array. *)
Theorem C22_axis r (a : arr) u n (h : list nat -> nat -> F) :
  arr_wf a -> akind a = KFloat -> ashape a = u ++ [n] -> (r <> RAdd -> 1 <= n) ->
  (forall p j, inb u p -> j < n -> get a (p ++ [j]) = SF (h p j)) ->
  exists b, nd_reduce r (length u) a = Ok b /\ akind b = KFloat /\ ashape b = u /\
    forall p x, inb u p -> reduces r (h p) n x -> get b p = SF x.
Proof.
  intros W K S HR HG.
  assert (RK : arank a = length u + 1) by (unfold arank; rewrite S, app_length; reflexivity).
  assert (NN : nth (length u) (ashape a) 0 = n) by (rewrite S, app_nth2, Nat.sub_diag; auto).
  assert (DL : del_nth (length u) (ashape a) = u).
  { rewrite S. unfold del_nth. rewrite firstn_app_exact, skipn_S_app by auto. apply app_nil_r. }
  unfold nd_reduce. replace (length u <? arank a) with true by (symmetry; apply Nat.ltb_lt; lia).
  cbn [guard bind]. rewrite K. replace (kind_bin (rop_bop r) KFloat KFloat) with (Some KFloat) by (destruct r; reflexivity).
  cbn [of_opt bind]. rewrite NN, DL.
  replace ((0 <? n) || match r with RAdd => true | _ => false end) with true.
  2:{ destruct r; [rewrite orb_true_r; auto| |]; (assert (1 <= n) by (apply HR; discriminate)); (replace (0 <? n) with true by (symmetry; apply Nat.ltb_lt; lia)); auto. }
  cbn [guard bind]. eexists. split; [reflexivity|]. split; [reflexivity|]. split; [reflexivity|].
  intros p x Hp RX. apply fred_reduces in RX. subst x. rewrite get_tab by auto.
  assert (G : forall j, j < n -> get a (ins_nth (length u) j p) = SF (h p j)).
  { intros j Hj. unfold ins_nth. apply inb_length in Hp as Lp. rewrite firstn_all2, skipn_all2 by lia. apply HG; auto. }
  unfold fred. destruct n as [|n]; [reflexivity|]. rewrite (G 0) by lia.
  apply fold_sbin. intros j Hj. apply in_seq in Hj. apply G. lia.
Qed.

(** Compiled programs with reductions: the value of the fold. *)
Theorem C22_compiled fl orc fuel c size acc init body y (G : tctx) (E : env) (r : yenv) X v :
  let PO : PadOps := nd_edge_pad in
  let e := PFold c size acc init body in
  float_laws -> use_reductions fl = true -> strict fl = true ->
  lower fl orc fuel e = Ok y -> well_formed G X e -> passed X E r -> env_typed G E ->
  safe_all fl orc (fun _ => true) true (fun _ => 1) E e ->
  den E e = Ok v -> yeval r y = Ok (pack (vleaves v)).
Proof. intros PO e LAWS RED. apply C19_compiled; auto. Qed.
End Props.

Section Samples.
#[local] Existing Instance zfloat.
#[local] Existing Instance no_externs.

Example C22_laws_example : float_laws.
Proof.
  constructor; simpl; [exact Zth|intros; lia..].
Qed.

(** sizes are equal when they are the same term *)
Definition same_sizes : oracle := mkOracle (fun _ _ => false) phi_eqb (fun _ => 0).
(** phi_to_yarr.py:25-35 with reductions, without einsum *)
Definition with_reductions (st : bool) : flags := mkFlags true true true true false st.
Definition red_code (st : bool) (e : phi) : yarr :=
  match lower (with_reductions st) same_sizes 20 e with Ok y => y | Err _ => YTuple [] end.

(** fold(5.0, lambda k, acc: a[k] * 2.0 + acc, count=a.size(0)) *)
Definition sum_elem : phi := PBin BMul (PGet arg0 (PStore (SV 1) (TScalar KInt))) (cf 2).
Definition sum_prog : phi :=
  PFold 1 (PDim arg0 0) 2 (cf 5) (PBin BAdd sum_elem (PStore (SV 2) (TScalar KFloat))).
Definition doubled (k : nat) : Z := (20 * (Z.of_nat k + 1))%Z.
Lemma sum_steps k : (Z.of_nat k < 3)%Z ->
  den (upd E0 (SV 1) (vnat k)) sum_elem = Ok (VArr (ascalar (SF (doubled k : F)))).
Proof. intros H. destruct k as [|[|[|k]]]; [vm_compute; reflexivity..|lia]. Qed.
Example C22_value_example :
  match_reduction_by_body (PBin BAdd sum_elem (PStore (SV 2) (TScalar KFloat))) 2 = Some (sum_elem, RAdd) /\
  ~ free_in (SV 2) sum_elem /\ den_int E0 (PDim arg0 0) 3 /\
  @reduces zfloat RAdd doubled 3 120%Z /\
  den E0 sum_prog = Ok (VArr (ascalar (SF (125%Z : F)))) /\
  exists y, lower (with_reductions true) same_sizes 20 sum_prog = Ok y /\
    (exists p y', y = YBin BAdd (YConst (ascalar (SF (5%Z : F)))) (YReduceAxis RAdd p y') None) /\
    @yeval zfloat no_externs edge_pads R0 y = Ok (YA (ascalar (SF (125%Z : F)))).
Proof.
  split; [reflexivity|]. split.
  { intros H. apply free_in_isfree, isfree_syms in H. simpl in H. intuition discriminate. }
  split; [eexists; split; reflexivity|]. split.
  { change 120%Z with (@op_of zfloat RAdd (@op_of zfloat RAdd (doubled 0) (doubled 1)) (doubled 2)).
    apply red_more; [lia|]. apply red_more; [lia|]. apply red_one. }
  split; [vm_compute; reflexivity|].
  exists (red_code true sum_prog). split; [vm_compute; reflexivity|]. split; [|vm_compute; reflexivity].
  do 2 eexists. vm_compute. reflexivity.
Qed.
Lemma arg0_size E v n : E (SV 0) = E0 (SV 0) -> den E arg0 = Ok v -> vdim v 0 = Ok n -> n = 3 /\ v = VArr (farr [3] [10; 20; 30]%Z).
Proof.
  intros HE HV HD. unfold arg0 in HV. cbn [den] in HV. rewrite HE in HV. injection HV as <-.
  change (vdim _ 0) with (@Ok nat 3) in HD. injection HD as <-. auto.
Qed.
Lemma index_shift i : match_index_clipped_shift (p_at i) = Some (i, (None, None, None)).
Proof. unfold match_index_clipped_shift, p_at. simpl. rewrite ?Nat.eqb_refl. reflexivity. Qed.
Lemma elem_at i : substitute sum_elem [(SV 1, p_at i)] = PBin BMul (PGet arg0 (p_at i)) (cf 2).
Proof. reflexivity. Qed.

Example C22_compiled_example :
  well_formed G0 [0] sum_prog /\ passed [0] E0 R0 /\ env_typed G0 E0 /\
  safe_all (with_reductions true) same_sizes (fun _ => true) true (fun _ => 1) E0 sum_prog.
Proof.
  split; [|split; [|split]].
  - split; [eexists; reflexivity|]. split.
    { simpl. repeat match goal with
        | |- _ /\ _ => split | |- exists _, _ => eexists | |- arr_wf _ => apply ascalar_wf | |- _ = _ => reflexivity end. }
    split; [simpl; repeat split; auto|]. split; [simpl; repeat split; auto|].
    split; [simpl; intuition congruence|].
    intros s. unfold G0, upd, empty_env. destruct (sym_eqb s (SV 0)) eqn:Q; [|congruence].
    apply sym_eqb_eq in Q. subst. exists 0. simpl. auto.
  - split; [reflexivity|]. intros x [<-|[]]. exists (VArr (farr [3] [10; 20; 30]%Z)). split; [reflexivity|]. split; [|reflexivity].
    split; [reflexivity|]. repeat constructor.
  - intros s t v. unfold G0, E0, upd, empty_env. destruct (sym_eqb s (SV 0)); [|discriminate].
    intros H1 H2. injection H1 as <-. injection H2 as <-. split; [|reflexivity]. split; [reflexivity|]. repeat constructor.
  - intros [|f]; [exact I|]. unfold sum_prog. cbn [safe]. split; [destruct f as [|[|f]]; exact I|]. split; [destruct f; exact I|].
    split; [|split; [|discriminate]].
    + intros v z k w HV HZ Hk HW. destruct f as [|f]; [exact I|]. unfold sum_elem. cbn [safe]. split; [|destruct f; exact I].
      destruct f as [|f]; [exact I|]. cbn [safe]. split; [|destruct f; exact I].
      destruct f as [|f]; [exact I|]. cbn [safe]. split; [destruct f; exact I|]. split; [destruct f; exact I|].
      intros u n Hu Hn. destruct (arg0_size _ _ _ eq_refl Hu Hn) as [-> _]. cbn. lia.
    + intros _ index elem r HM FR. injection HM as <- <-. cbv zeta.
      split; [|split; [|intros ? ? K; congruence]].
      * rewrite elem_at. destruct f as [|f]; [exact I|]. cbn [safe]. split; [destruct f as [|[|f]]; exact I|].
        intros v z HV HZ. injection HV as <-. injection HZ as <-. split; [lia|]. intros k Hk.
        destruct f as [|f]; [exact I|]. cbn [safe]. split; [|destruct f; exact I].
        destruct f as [|f]; [exact I|]. cbn [safe]. split; [destruct f; exact I|]. split; [destruct f; exact I|].
        intros u n Hu Hn. destruct (arg0_size _ _ _ eq_refl Hu Hn) as [-> ->].
        cbn [with_reductions use_slice_pads use_slice_elision]. rewrite index_shift.
        change (smem (SX index) (free_indices arg0)) with false. cbn [same_sizes eq_index andb is_none].
        split; [lia|]. split; [rewrite set_asg_eq; cbv; lia|]. split; [auto|]. split; discriminate.
      * rewrite elem_at. exists (VArr (farr [3] [20; 40; 60]%Z)).
        assert (Q : forall k, k < 3 -> den (upd E0 (SX index) (vnat k)) (PBin BMul (PGet arg0 (p_at index)) (cf 2)) =
                    Ok (VArr (ascalar (SF (doubled k : F))))).
        { intros k Hk. unfold arg0, p_at. cbn [den]. rewrite upd_eq, upd_neq by discriminate.
          destruct k as [|[|[|k]]]; [reflexivity..|lia]. }
        remember (PBin BMul (PGet arg0 (p_at index)) (cf 2)) as g eqn:Hg. cbn [den].
        change (let* v := den E0 arg0 in let* n := vdim v 0 in Ok (vnat n)) with (@Ok val (vnat 3)).
        cbn [bind]. change (vint 0) with (vnat 0). rewrite ?(Q 0) by lia.
        change (val_int (vnat 3)) with (@Ok Z 3%Z). cbn [bind].
        change (seq 0 (Z.to_nat 3)) with [0; 1; 2]. cbn [mapM bind].
        rewrite !Q by lia. reflexivity.
Qed.
Example C22_axis_example :
  @nd_reduce zfloat RMin 1 (farr [2; 3] [4; 2; 9; 7; 8; 5]%Z) = Ok (farr [2] [2; 5]%Z) /\
  @nd_reduce zfloat RAdd 1 (farr [2; 0] []) = Ok (farr [2] [0; 0]%Z).
Proof. split; reflexivity. Qed.

(** The recogniser does not look for the accumulator in the element:
    fold(1.0, lambda k, acc: acc + acc * a[k], count=a.size(0)) is compiled to code that
    reads the accumulator outside of any loop. *)
Definition acc_prog : phi :=
  PFold 1 (PDim arg0 0) 2 (cf 1) (PBin BAdd (PStore (SV 2) (TScalar KFloat))
    (PBin BMul (PStore (SV 2) (TScalar KFloat)) (PGet arg0 (PStore (SV 1) (TScalar KInt))))).
Theorem C22_accumulator_refuted :
  exists y, lower (with_reductions false) same_sizes 20 acc_prog = Ok y /\
    den E0 acc_prog = Ok (VArr (ascalar (SF (7161%Z : F)))) /\
    @yeval zfloat no_externs edge_pads R0 y = Err EUnbound.
Proof. exists (red_code false acc_prog). repeat split; vm_compute; reflexivity. Qed.

(** A minimum over no elements is the initial value, and raises when compiled. *)
Definition empty_prog : phi :=
  PFold 1 (PDim arg0 0) 2 (cf 5) (PBin BMin (PStore (SV 2) (TScalar KFloat)) (PGet arg0 (PStore (SV 1) (TScalar KInt)))).
Definition E_ : env := upd empty_env (SV 0) (VArr (farr [0] [])).
Definition R_ : yenv := upd empty_env (SV 0) (YA (farr [0] [])).
Theorem C22_empty_refuted :
  exists y, lower (with_reductions true) same_sizes 20 empty_prog = Ok y /\
    den E_ empty_prog = Ok (VArr (ascalar (SF (5%Z : F)))) /\
    @yeval zfloat no_externs edge_pads R_ y = Err EValue.
Proof. exists (red_code true empty_prog). repeat split; vm_compute; reflexivity. Qed.
End Samples.

Print Assumptions C22_value.
Print Assumptions C22_axis.
Print Assumptions C22_compiled.
Print Assumptions C22_accumulator_refuted.
Print Assumptions C22_empty_refuted.
