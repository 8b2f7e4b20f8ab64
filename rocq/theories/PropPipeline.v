(** Property C41: the passes put together — what the interpreter
    (ein/backend/naive.py:88-93) and the NumPy backend
    (ein/backend/numpy_backend.py:126-190) compute is the value of the program. *)
From Verif Require Import Base Scalar Tensor Types Sym Phi Den NdOps Term PhiTerm NdFacts DenFree DenWf Typing TypesFacts Naive SpecPhi Lining Outline
  Dominators InlineMemo GenCheck Checkers OutlinePass OutlineTotal OutlineBinders Yarr YTerm YWf Machine MachineSim MachineRun Inplace
  Soa SoaTyp SoaFacts SoaMain SoaWf Axial YOps AxialFacts AxialOps Codegen IndexOps CodegenSafe CodegenGet CodegenCtx CodegenCases CodegenCorrect CodegenSub Compile FastPad Cancel Pipeline Sample
  PropArray PropMachine PropCodegen PropOutline.

Section Props.
Context {FO : FloatOps} {EX : Externs}.

Lemma fresh_less (e : phi) : forall X Y, incl Y X -> fresh_binders X e -> fresh_binders Y e.
Proof.
  assert (C : forall s (X Y : list sym), incl Y X -> incl (s :: Y) (s :: X)) by (intros s X Y H a [<-|Ha]; simpl; auto).
  induction e using phi_ind'; intros X Y HI F; simpl in *; rewrite ?fold_and in *; rewrite ?Forall_forall in *; intuition eauto 6.
Qed.

(** What is asked of a program and its arguments [X], of types [G]: it is
    well-formed, its arrays of records are of records of arrays one level deep
    ([all_shallow]), and its binders are not arguments. *)
Definition convertible (G : tctx) (X : list nat) (p : phi) : Prop :=
  well_formed G X p /\ all_shallow p /\ (forall s t, G s = Some t -> shallow t = true) /\
  (forall x, In x X -> x < next_sym p).

(** The converted program is well-formed, with the same arguments. *)
Theorem C12_well_formed fuel p q G X :
  convertible G X p -> struct_of_arrays fuel p = Ok q ->
  well_formed (fun s => option_map soa_ty (G s)) X q /\ typ q = typ p.
Proof.
  intros (((t & T) & SC & II & EO & FB & DOM) & SH & HG & BX) Q.
  destruct (soa_wf fuel p q G (map SV X) t) as [W FQ]; auto.
  { intros s Hs. apply in_map_iff in Hs as (x & <- & Hx). simpl. auto. }
  destruct (wt_scoped _ _ _ W) as (S1 & S2 & S3). pose proof (wt_typ _ _ _ W) as TQ.
  split; [|congruence]. split; [eauto|]. split; auto. split; auto. split; auto. split; auto.
  intros s Hs. apply DOM. destruct (G s); [discriminate|]. simpl in Hs. congruence.
Qed.

(** * The reference interpreter *)

Theorem C41_interpreter fuel nxt p q G X (E E' : env) v w :
  convertible G X p -> env_typed G E -> (forall s, E s <> None -> exists x, s = SV x /\ In x X) ->
  struct_of_arrays fuel p = Ok q -> distinct_binders q -> above nxt q -> (forall x, In x X -> x < nxt) ->
  den E p = Ok v -> interpret true fuel nxt p E = Ok (w, E') ->
  w = v /\ interpret false fuel nxt p E = Ok (w, E') /\ (forall s, E' s = E s).
Proof.
  intros CV ET ED Q DQ AQ XN D H. pose proof (C12_well_formed _ _ _ _ _ CV Q) as [(_ & _ & _ & _ & FQ & _) _].
  destruct CV as (((t & T) & SC & II & EO & FB & _) & SH & HG & _).
  destruct (soa_ok fuel p q G E t v) as [DQ' _]; auto. { eapply fresh_less; [|exact FB]. intros ? []. }
  unfold interpret in *. rewrite Q in *. cbn [bind] in *. apply bind_ok in H as (r & R & H). rewrite R. cbn [bind].
  assert (FR : fresh_binders (map SV X) r).
  { apply apart_fresh. destruct (C39_result q r nxt DQ AQ R) as (_ & DR & _).
    apply (outline_apart nxt _ q r DQ AQ R (fresh_nodes q _ FQ)); auto.
    intros x Hx. apply in_map_iff in Hx as (y & Hy & Hx). injection Hy as <-. auto. }
  assert (DX : env_dom (map SV X) E). { intros s Hs. destruct (ED s Hs) as (x & -> & Hx). apply in_map. auto. }
  destruct (nin_den _ _ _ FR DX _ _ H) as [SE DR]. split; [|split; [apply nin_strict; auto|auto]].
  exact (outline_agree_any (vint 0) nxt q r E v w phi_atoms (conj DQ AQ) R DQ' DR).
Qed.

(** * The NumPy backend *)

Theorem C41_numpy garbage cl copies shares fl orc fuel1 fuel2 nxt p q y z G X (E : env) h H h' H' v w :
  let PO : PadOps := fast_edge_pad garbage in
  convertible G X p -> env_typed G E ->
  (* compiled: phi_to_yarr.transform, and numpy_backend.stage_in_array *)
  strict fl = true -> (use_reductions fl = true -> float_laws) -> (use_einsum fl = true -> float_laws) ->
  struct_of_arrays fuel1 p = Ok q -> safe_all fl orc (kind_eqb KFloat) false (fun _ => 1) E q ->
  transform fl orc fuel1 fuel2 p = Ok y -> stage_in_array nxt y = Ok z ->
  (* the code's own binders *)
  distinct_binders y -> yfresh (map SV X) y -> above nxt y -> (forall x, In x X -> x < nxt) ->
  (* arrays: the constants, what external functions and the library return *)
  (forall y0 a, lower fl orc fuel2 q = Ok y0 -> sub_of (YConst a) y0 -> arr_wf a) ->
  (forall a, sub_of (YConst a) z -> nth_error h (cl a) = Some a) ->
  (forall f l a, ext_call f l = Ok a -> arr_wf a) -> shares_ok shares ->
  (* the arguments *)
  passed X E (absE h H) -> (forall s, H s <> None -> exists x, s = SV x /\ In x X) ->
  (forall s u, H s = Some u -> hval_ok h u) ->
  (* no comparison is computed in place *)
  (forall o a b i, sub_of (YBin o a b (Some i)) z -> keeps_kind o = true) ->
  den E p = Ok v -> mexec cl copies shares z (h, H) = Ok (w, (h', H')) ->
  abs h' w = pack (vleaves v) /\
  (forall l a, nth_error h l = Some a -> nth_error h' l = Some a) /\ (forall s, H' s = H s).
Proof.
  intros PO CV ET STR RED EIN Q SF TR ST DY FY AY XN KW KH EW SO PS HD HO KK D M.
  pose proof (C12_well_formed _ _ _ _ _ CV Q) as [WQ _].
  destruct CV as (((t & T) & SC & II & EO & FB & _) & SH & HG & _).
  destruct (soa_ok fuel1 p q G E t v) as [DQ _]; auto. { eapply fresh_less; [|exact FB]. intros ? []. }
  unfold transform in TR. rewrite Q in TR. cbn [bind] in TR. apply bind_ok in TR as (y0 & L & TR). injection TR as <-.
  assert (SE : sane_env (absE h H)).
  { intros s u Hu. assert (H s <> None) as Hs by (unfold absE in Hu; destruct (H s); [discriminate|simpl in Hu; congruence]).
    destruct (HD s Hs) as (x & -> & Hx). destruct PS as [_ PS]. destruct (PS x Hx) as (u0 & _ & W & P). rewrite P in Hu. injection Hu as <-.
    apply pack_sane. auto. }
  pose proof (fast_pad_wf garbage) as PW.
  assert (SX : sane_externals) by (split; auto; intros a pd b; apply PW).
  assert (Y0 : yeval (absE h H) y0 = Ok (pack (vleaves v))).
  { eapply (C19_compiled_numpy garbage fl orc fuel2 q y0 (fun s => option_map soa_ty (G s)) E); eauto. apply env_SG. auto. }
  assert (Y1 := C20_shape_cancellation y0 _ _ SX SE (fun a Ha => KW y0 a L Ha) Y0).
  assert (Y2 := C20_tuple_cancellation _ _ _ SX SE (fun a Ha => KW y0 a L (shape_consts y0 a Ha)) Y1).
  set (y := cancel_tuple_ops (cancel_shape_ops y0)) in *.
  unfold stage_in_array in ST. apply bind_ok in ST as (z0 & O & ST). injection ST as <-.
  assert (FZ : yfresh (map SV X) z0).
  { apply apart_yfresh. destruct (C39_array_result y z0 nxt DY AY O) as (_ & DZ & _).
    apply (outline_apart nxt _ y z0 DY AY O (yfresh_nodes y _ FY)); auto.
    intros x Hx. apply in_map_iff in Hx as (x0 & Hy & Hx). injection Hy as <-. auto. }
  assert (RD : ready cl shares (map SV X) z0 h H).
  { split; auto. split; auto. split; [|split; auto].
    - intros s Hs. destruct (HD s Hs) as (x & -> & Hx). apply in_map. auto.
    - intros a Ha. apply KH. exact (inplace_up z0 (YConst a) Ha). }
  destruct (C21_inplace_sound cl copies shares (map SV X) z0 h H w h' H' RD KK M) as (YZ & HP & EP).
  split; auto.
  exact (outline_agree_any (YA (ascalar (SI 0%Z))) nxt y z0 _ _ _ yarr_atoms (conj DY AY) O Y2 YZ).
Qed.
End Props.

(** * Example *)
Section Samples.
#[local] Existing Instance zfloat.
#[local] Existing Instance no_externs.

(** array(lambda i: (x[i] * x[i] + x[i], x[i] + 1.0), size=x.size(0))[1] *)
Definition pipe_prog : phi :=
  let x := PGet arg0 (idx_ 0) in
  PGet (PVec 0 (PDim arg0 0) (PCons (PBin BAdd (PBin BMul x x) x) (PBin BAdd x (cf 1)))) (ci 1).
Definition pipe_conv : phi :=
  let x i := PGet arg0 (idx_ i) in
  PCons (PGet (PVec 1 (PDim arg0 0) (PBin BAdd (PBin BMul (x 1) (x 1)) (x 1))) (ci 1))
        (PGet (PVec 2 (PDim arg0 0) (PBin BAdd (x 2) (cf 1))) (ci 1)).
Definition takes_only : flags := mkFlags true false false false false true.
Definition pipe_code : yarr :=
  let x := YTake (YVar 0 [(1, KFloat)]) [Some (YRange (YDim 0 (YVar 0 [(1, KFloat)])))] in
  let one := [Some (YConst (ascalar (SI 1)))] in
  YTuple [YTake (YBin BAdd (YBin BMul x x None) x None) one;
          YTake (YBin BAdd x (YConst (ascalar (SF (1%Z : F)))) None) one].
(** x[range(n)] is computed once, and the sum into the array of the product *)
Definition pipe_staged : yarr :=
  let x := YTake (YVar 0 [(1, KFloat)]) [Some (YRange (YDim 0 (YVar 0 [(1, KFloat)])))] in
  let y := YVar 1 [(1, KFloat)] in
  let one := [Some (YConst (ascalar (SI 1)))] in
  YLet 1 x (YTuple [YTake (YBin BAdd (YBin BMul y y None) y (Some 0)) one;
                    YTake (YBin BAdd y (YConst (ascalar (SF (1%Z : F)))) None) one]).
Definition pipe_heap : heap := [farr [3] [10; 20; 30]%Z; ascalar (SI 1); ascalar (SF (1%Z : F))].
Definition pipe_cl (a : arr) : nat := match akind a with KInt => 1 | _ => 2 end.
Definition pipe_henv : henv := upd empty_env (SV 0) (HA (whole 0)).
Definition pipe_val : val := VPair (VArr (ascalar (SF (420%Z : F)))) (VArr (ascalar (SF (21%Z : F)))).

Definition arr_wfb (a : arr) : bool :=
  (length (adata a) =? size_of (ashape a)) && forallb (fun s => kind_eqb (skind s) (akind a)) (adata a).
Definition consts_wfb (y : yarr) : bool :=
  forallb (fun n => match n with YConst a => arr_wfb a | _ => true end) (gnodes y).
Lemma consts_wfb_ok y a : consts_wfb y = true -> sub_of (YConst a) y -> arr_wf a.
Proof.
  unfold consts_wfb. rewrite forallb_forall. intros H Ha. apply gnodes_spec in Ha. apply H in Ha.
  apply andb_true_iff in Ha as [H1 H2]. split; [apply Nat.eqb_eq; auto|]. rewrite Forall_forall. rewrite forallb_forall in H2.
  intros s Hs. apply kind_eqb_eq. auto.
Qed.

Lemma node_where (f : yarr -> bool) y n : sub_of n y -> f n = true -> In n (filter f (gnodes y)).
Proof. intros H Hf. apply filter_In. split; auto. apply gnodes_spec. auto. Qed.

Lemma pipe_convertible : convertible G0 [0] pipe_prog.
Proof.
  split; [|split; [|split]].
  - split; [eexists; reflexivity|]. split.
    { simpl. repeat match goal with
        | |- _ /\ _ => split | |- exists _, _ => eexists | |- arr_wf _ => apply ascalar_wf | |- _ = _ => reflexivity end. }
    split; [simpl; unfold int_typed; repeat (split || eexists || reflexivity)|]. split; [simpl; repeat split; auto|].
    split; [simpl; intuition congruence|].
    intros s. unfold G0, upd, empty_env. destruct (sym_eqb s (SV 0)) eqn:Q; [|congruence].
    apply sym_eqb_eq in Q. subst. exists 0. simpl. auto.
  - simpl. repeat match goal with |- _ /\ _ => split | |- True => exact I | |- forall _, _ => intros ? Hs; inversion Hs; reflexivity end.
  - intros s t. unfold G0, upd, empty_env. destruct (sym_eqb s (SV 0)); [|discriminate]. intros H. injection H as <-. reflexivity.
  - intros x [<-|[]]. vm_compute. lia.
Qed.

Lemma E0_typed : env_typed G0 E0.
Proof.
  intros s t v. unfold G0, E0, upd, empty_env. destruct (sym_eqb s (SV 0)); [|discriminate].
  intros H1 H2. injection H1 as <-. injection H2 as <-. split; [|reflexivity]. split; [reflexivity|]. repeat constructor.
Qed.

Lemma E0_args s : E0 s <> None -> exists x, s = SV x /\ In x [0].
Proof.
  unfold E0, upd, empty_env. destruct (sym_eqb s (SV 0)) eqn:Q; [|congruence]. apply sym_eqb_eq in Q. intros _. exists 0. simpl. auto.
Qed.

Example C41_interpreter_example :
  convertible G0 [0] pipe_prog /\ env_typed G0 E0 /\ (forall s, E0 s <> None -> exists x, s = SV x /\ In x [0]) /\
  struct_of_arrays 20 pipe_prog = Ok pipe_conv /\ distinct_binders pipe_conv /\ above 1 pipe_conv /\
  den E0 pipe_prog = Ok pipe_val /\ exists E', interpret true 20 1 pipe_prog E0 = Ok (pipe_val, E').
Proof.
  split; [exact pipe_convertible|]. split; [exact E0_typed|]. split; [exact E0_args|]. split; [vm_compute; reflexivity|].
  split; [apply distinctb_sound; vm_compute; reflexivity|]. split; [apply aboveb_sound; vm_compute; reflexivity|].
  split; [vm_compute; reflexivity|]. eexists. vm_compute. reflexivity.
Qed.

Example C41_numpy_example :
  convertible G0 [0] pipe_prog /\ env_typed G0 E0 /\ struct_of_arrays 20 pipe_prog = Ok pipe_conv /\
  safe_all takes_only no_sizes (kind_eqb KFloat) false (fun _ => 1) E0 pipe_conv /\
  transform takes_only no_sizes 20 20 pipe_prog = Ok pipe_code /\ stage_in_array 1 pipe_code = Ok pipe_staged /\
  distinct_binders pipe_code /\ yfresh [SV 0] pipe_code /\ above 1 pipe_code /\
  (forall y0 a, lower takes_only no_sizes 20 pipe_conv = Ok y0 -> sub_of (YConst a) y0 -> arr_wf a) /\
  (forall a, sub_of (YConst a) pipe_staged -> nth_error pipe_heap (pipe_cl a) = Some a) /\
  passed [0] E0 (absE pipe_heap pipe_henv) /\ (forall s, pipe_henv s <> None -> exists x, s = SV x /\ In x [0]) /\
  (forall s u, pipe_henv s = Some u -> hval_ok pipe_heap u) /\
  (forall o a b i, sub_of (YBin o a b (Some i)) pipe_staged -> keeps_kind o = true) /\
  den E0 pipe_prog = Ok pipe_val /\
  exists w h' H',
    @mexec zfloat no_externs (fast_edge_pad (fun _ => 99%Z)) pipe_cl (fun _ _ => false) no_share pipe_staged (pipe_heap, pipe_henv) = Ok (w, (h', H')) /\
    abs h' w = YT [ascalar (SF (420%Z : F)); ascalar (SF (21%Z : F))].
Proof.
  split; [exact pipe_convertible|]. split; [exact E0_typed|]. split; [vm_compute; reflexivity|]. split.
  { assert (X0 : forall N E f, E (SV 0) = Some (VArr (farr [3] [10; 20; 30]%Z)) -> forall i,
      safe takes_only no_sizes (kind_eqb KFloat) false f N E (PGet arg0 (idx_ i))).
    { intros N E [|f] HE i; [exact I|]. cbn [safe]. split; [destruct f; exact I|]. split; [destruct f; exact I|].
      intros v n HV HD. unfold arg0 in HV. cbn [den] in HV. rewrite HE in HV. injection HV as <-. injection HD as <-. simpl. lia. }
    assert (D0 : forall N E f, safe takes_only no_sizes (kind_eqb KFloat) false f N E (PDim arg0 0)) by (intros N E [|[|f]]; exact I).
    intros [|f]; [exact I|]. cbn [safe pipe_conv]. split.
    - destruct f as [|f]; [exact I|]. cbn [safe]. split; [|split; [destruct f; exact I|]].
      + destruct f as [|f]; [exact I|]. cbn [safe]. split; [apply D0|]. intros v z HV HZ. injection HV as <-. injection HZ as <-.
        split; [lia|]. intros k _. destruct f as [|f]; [exact I|]. cbn [safe]. split; [|apply X0; reflexivity].
        destruct f as [|f]; [exact I|]. cbn [safe]. split; apply X0; reflexivity.
      + intros v n HV HD. vm_compute in HV. injection HV as <-. injection HD as <-. simpl. lia.
    - destruct f as [|f]; [exact I|]. cbn [safe]. split; [|split; [destruct f; exact I|]].
      + destruct f as [|f]; [exact I|]. cbn [safe]. split; [apply D0|]. intros v z HV HZ. injection HV as <-. injection HZ as <-.
        split; [lia|]. intros k _. destruct f as [|f]; [exact I|]. cbn [safe]. split; [apply X0; reflexivity|destruct f; exact I].
      + intros v n HV HD. vm_compute in HV. injection HV as <-. injection HD as <-. simpl. lia. }
  split; [vm_compute; reflexivity|]. split; [vm_compute; reflexivity|].
  split; [apply gdistinctb_sound; vm_compute; reflexivity|]. split; [cbn; auto 20|].
  split; [apply gaboveb_sound; vm_compute; reflexivity|]. split.
  { intros y0 a H. apply consts_wfb_ok.
    assert (B : match lower takes_only no_sizes 20 pipe_conv with Ok y => consts_wfb y | Err _ => true end = true) by (vm_compute; reflexivity).
    rewrite H in B. exact B. }
  split.
  { intros a H. apply (node_where (fun n => match n with YConst _ => true | _ => false end)) in H; auto. vm_compute in H.
    repeat (destruct H as [H|H]; [try discriminate; injection H as <-; vm_compute; reflexivity|]). destruct H. }
  split. { split; [reflexivity|]. intros x [<-|[]]. exists (VArr (farr [3] [10; 20; 30]%Z)). split; [reflexivity|]. split; [|reflexivity].
    split; [reflexivity|]. repeat constructor. }
  split. { intros s. unfold pipe_henv, upd, empty_env. destruct (sym_eqb s (SV 0)) eqn:Q; [|congruence]. apply sym_eqb_eq in Q. intros _. exists 0. simpl. auto. }
  split. { intros s v. unfold pipe_henv, upd, empty_env. destruct (sym_eqb s (SV 0)); [|discriminate]. intros H; injection H as <-; vm_compute; lia. }
  split. { intros o a b i H. apply (node_where (fun n => match n with YBin _ _ _ (Some _) => true | _ => false end)) in H; auto. vm_compute in H.
    repeat (destruct H as [H|H]; [try discriminate; injection H as <- <- <- <-; vm_compute; reflexivity|]). destruct H. }
  split; [vm_compute; reflexivity|]. eexists _, _, _. split; vm_compute; reflexivity.
Qed.

(** The condition on the binders of the converted program is needed, and does not
    follow from that of the program: a loop inside an array of records is
    duplicated, and [outline] raises an AssertionError.
    array(lambda i: (s(i), s(i) + 1), size=2)[1] where s(i) is
    fold(0, lambda k, acc: acc + k * k * i, count=3). *)
Definition dup_prog : phi :=
  let iv x := PStore (SV x) (TScalar KInt) in
  let s := PFold 1 (ci 3) 2 (ci 0) (PBin BAdd (iv 2) (PBin BMul (PBin BMul (iv 1) (iv 1)) (idx_ 0))) in
  PGet (PVec 0 (ci 2) (PCons s (PBin BAdd s (ci 1)))) (ci 1).
Theorem C41_duplicated_refuted :
  convertible empty_env [] dup_prog /\ distinct_binders dup_prog /\
  den empty_env dup_prog = Ok (VPair (vint 5) (vint 6)) /\
  exists q, struct_of_arrays 100 dup_prog = Ok q /\ above 50 q /\ ~ distinct_binders q /\ outline 50 q = Err EAssert /\
    interpret false 100 50 dup_prog empty_env = Err EAssert.
Proof.
  split.
  { split; [|split; [|split]].
    - split; [eexists; reflexivity|]. split.
      { simpl. repeat match goal with
          | |- _ /\ _ => split | |- exists _, _ => eexists | |- arr_wf _ => apply ascalar_wf | |- _ = _ => reflexivity end. }
      split; [simpl; unfold int_typed; repeat (split || eexists || reflexivity)|]. split; [simpl; repeat split; auto|].
      split; [simpl; intuition congruence|]. intros s H. exfalso. apply H. reflexivity.
    - simpl. repeat match goal with |- _ /\ _ => split | |- True => exact I | |- forall _, _ => intros ? Hs; inversion Hs; reflexivity end.
    - discriminate.
    - intros x []. }
  split; [apply distinctb_sound; vm_compute; reflexivity|]. split; [vm_compute; reflexivity|].
  assert (A : exists q, struct_of_arrays 100 dup_prog = Ok q) by (eexists; vm_compute; reflexivity).
  destruct A as (q & Q). 
  assert (A : above 50 q).
  { apply aboveb_sound. assert (B : match struct_of_arrays 100 dup_prog with Ok q => aboveb 50 q | _ => false end = true) by (vm_compute; reflexivity).
    rewrite Q in B. exact B. }
  assert (R : outline 50 q = Err EAssert).
  { assert (B : match struct_of_arrays 100 dup_prog with Ok q => outline 50 q | Err e => Err e end = Err EAssert) by (vm_compute; reflexivity).
    rewrite Q in B. exact B. }
  exists q. split; [exact Q|]. split; [exact A|]. split; [|split; [exact R|]].
  - intros D. destruct (C39_succeeds_used q 50 D A) as (r & Hr); [|congruence].
    intros x b body H. exfalso. apply gnodes_spec in H.
    assert (K : existsb (fun n => match n with PLet _ _ _ => true | _ => false end) (gnodes q) = true) by (apply existsb_exists; eauto).
    assert (L : match struct_of_arrays 100 dup_prog with
                | Ok q => existsb (fun n => match n with PLet _ _ _ => true | _ => false end) (gnodes q) | _ => false end = false)
      by (vm_compute; reflexivity).
    rewrite Q in L. congruence.
  - unfold interpret. rewrite Q. cbn [bind]. rewrite R. reflexivity.
Qed.
End Samples.

Print Assumptions C12_well_formed.
Print Assumptions C41_interpreter.
Print Assumptions C41_numpy.
Print Assumptions C41_duplicated_refuted.
