(** Property C03 on arrays: reductions compiled to the halving loop. *)
From Verif Require Import Base Scalar Tensor Types Sym Phi Den Term PhiTerm DenFree SpecPhi Lining TypesFacts Typing DenWf Naive
  Sizes ClipShift NdOps NdFacts Yarr Axial AxialFacts AxialOps Codegen IndexOps YOps CodegenSafe CodegenGet CodegenCtx
  CodegenCases CodegenAxes CodegenCorrect CodegenSub CodegenRed CodegenGo FastPad Compile StrictCode Sample PropAxes PropCodegen.

Section Props.
Context {FO : FloatOps} {EX : Externs}.

(** The element at position [k] of vectors reduced together: their elements, in a
    record when there is more than one vector. *)
Definition element (vs : list val) (k : nat) (v : val) : Prop :=
  exists e0 es, Forall2 (fun u e => vget u (Z.of_nat k) = Ok e) vs (e0 :: es) /\ v = fold_left VPair es e0.

Lemma element_row vs k v : element vs k v -> row_of vs k = Ok v.
Proof.
  intros (e0 & es & F & ->). unfold row_of.
  rewrite (proj2 (mapM_Forall2 (fun u => vget u (Z.of_nat k)) vs (e0 :: es)) F). reflexivity.
Qed.

(** A reduction by an operation [op] that is associative on a set [M] of values
    closed under it, with the initial value as identity: the compiled array code
    returns the elements combined from left to right.  Every length, any number of
    vectors and any element type. *)
Section Compiled.
Variables (fl : flags) (orc : oracle) (fuel : nat) (init xy : phi) (x y : nat) (vecs : list phi).
Variables (G : tctx) (E : env) (r : yenv) (X : list nat) (code : yarr).
Variables (M : val -> Prop) (op : val -> val -> val) (e0 : val) (vs rows : list val).

Definition monoid_on : Prop :=
  M e0 /\ (forall a b, M a -> M b -> M (op a b)) /\
  (forall a b c, M a -> M b -> M c -> op a (op b c) = op (op a b) c) /\
  (forall a, M a -> op e0 a = a /\ op a e0 = a).

Lemma compiled_reduction (padk : kind -> bool) (ez : bool) :
  monoid_on ->
  den E init = Ok e0 -> Forall2 (fun u v => den E u = Ok v) vecs vs -> vs <> [] ->
  Forall (fun u => vdim u 0 = Ok (length rows)) vs ->
  (forall k w, nth_error rows k = Some w -> element vs k w /\ M w) ->
  (forall a b, M a -> M b -> den (upd (upd E (SV x) a) (SV y) b) xy = Ok (op a b)) ->
  safe_all fl orc padk ez (fun _ => 1) E init ->
  Forall (safe_all fl orc padk ez (fun _ => 1) E) vecs ->
  (forall a b t m, M a -> M b -> ~ In (SX t) (fsyms (PReduce init x y xy vecs) ++ bsyms (PReduce init x y xy vecs)) -> 1 <= m ->
     safe_all fl orc padk ez (set_asg (fun _ => 1) t m) (upd (upd E (SV x) a) (SV y) b) xy) ->
  den E (PReduce init x y xy vecs) = Ok (fold_left op rows e0) /\
  safe_all fl orc padk ez (fun _ => 1) E (PReduce init x y xy vecs).
Proof.
  intros (M0 & MC & AS & ID) DI DV NE DN RW OP S1 S2 S3.
  apply mapM_Forall2 in DV.
  assert (ROW : forall k w, nth_error rows k = Some w -> row_of vs k = Ok w) by (intros k w H; apply element_row, RW; auto).
  assert (CM : forall v, combined E init x y xy vecs v -> M v).
  { induction 1 as [v H|vs' n k v H1 H2 H3 H4|a b v _ IH1 _ IH2 H].
    - congruence.
    - rewrite DV in H1. injection H1 as <-.
      assert (n = length rows). { destruct vs as [|u vs']; [contradiction|]. inversion H2; subst. inversion DN; subst. congruence. }
      subst n. destruct (nth_error rows k) as [w|] eqn:Q; [|apply nth_error_None in Q; lia].
      rewrite (ROW _ _ Q) in H4. injection H4 as <-. apply (proj2 (RW _ _ Q)).
    - unfold red_env in H. rewrite OP in H by auto. injection H as <-. auto. }
  split.
  - cbn [den]. rewrite DV. cbn [bind].
    assert (DN' : mapM (fun v => vdim v 0) vs = Ok (repeat (length rows) (length vs))).
    { apply mapM_Forall2. clear -DN. induction DN; simpl; constructor; auto. }
    rewrite DN'. cbn [bind]. destruct vs as [|u vs'] eqn:EV; [contradiction|]. rewrite <- EV in *. rewrite EV at 1. cbn [length repeat].
    assert (GU : forallb (Nat.eqb (length rows)) (repeat (length rows) (length vs')) = true).
    { apply forallb_forall. intros z Hz. apply List.repeat_spec in Hz. subst. apply Nat.eqb_refl. }
    rewrite GU. cbn [guard bind]. rewrite DI. cbn [bind].
    assert (IT : forall l k a, M a -> (forall j w, nth_error l j = Some w -> row_of vs (k + j) = Ok w /\ M w) ->
      iter_res (fun k v => let* es := mapM (fun u => vget u (Z.of_nat k)) vs in
        match es with [] => Err EType | e0 :: es' => den (upd (upd E (SV x) v) (SV y) (fold_left VPair es' e0)) xy end) k (length l) a
      = Ok (fold_left op l a)).
    { induction l as [|w l IH]; intros k a Ma Hl; [reflexivity|].
      cbn [length iter_res]. destruct (Hl 0 w eq_refl) as [Hw Mw]. rewrite Nat.add_0_r in Hw. unfold row_of in Hw.
      apply bind_ok in Hw as (es & He & Hw). rewrite He. cbn [bind]. destruct es as [|e1 es]; [discriminate|]. injection Hw as Hw.
      rewrite Hw, OP by auto. cbn [bind]. cbn [fold_left]. apply IH; auto.
      intros j w' Hj. replace (S k + j) with (k + S j) by lia. apply Hl. exact Hj. }
    apply IT; auto. intros j w Hj. split; [apply ROW|apply (RW j)]; auto.
  - intros [|f]; [exact I|]. cbn [safe]. split; [apply S1|]. split; [eapply Forall_impl; [|exact S2]; intros u Hu; apply Hu|].
    split.
    + split; [|split].
      * intros a b Ha Hb. exists (op a b). apply OP; auto.
      * intros a b c u v Ha Hb Hc Hu Hv. unfold red_env in *. rewrite OP in Hu, Hv by auto. injection Hu as <-. injection Hv as <-.
        rewrite !OP by auto. f_equal. auto.
      * intros e a He Ha. rewrite DI in He. injection He as <-. unfold red_env. rewrite !OP by auto. destruct (ID a) as [-> ->]; auto.
    + intros a b t m Ha Hb Ht Hm. apply S3; auto.
Qed.

Theorem C03_compiled :
  let PO : PadOps := nd_edge_pad in
  (use_reductions fl = true -> float_laws) -> (use_einsum fl = true -> float_laws) -> strict fl = true ->
  lower fl orc fuel (PReduce init x y xy vecs) = Ok code ->
  well_formed G X (PReduce init x y xy vecs) -> passed X E r -> env_typed G E ->
  monoid_on ->
  den E init = Ok e0 -> Forall2 (fun u v => den E u = Ok v) vecs vs -> vs <> [] ->
  Forall (fun u => vdim u 0 = Ok (length rows)) vs ->
  (forall k w, nth_error rows k = Some w -> element vs k w /\ M w) ->
  (forall a b, M a -> M b -> den (upd (upd E (SV x) a) (SV y) b) xy = Ok (op a b)) ->
  safe_all fl orc (fun _ => true) true (fun _ => 1) E init ->
  Forall (safe_all fl orc (fun _ => true) true (fun _ => 1) E) vecs ->
  (forall a b t m, M a -> M b -> ~ In (SX t) (fsyms (PReduce init x y xy vecs) ++ bsyms (PReduce init x y xy vecs)) -> 1 <= m ->
     safe_all fl orc (fun _ => true) true (set_asg (fun _ => 1) t m) (upd (upd E (SV x) a) (SV y) b) xy) ->
  yeval r code = Ok (pack (vleaves (fold_left op rows e0))).
Proof.
  intros PO RED EIN STR H WF PS ET MO DI DV NE DN RW OP S1 S2 S3.
  destruct (compiled_reduction (fun _ => true) true MO DI DV NE DN RW OP S1 S2 S3) as [D S].
  eapply C19_compiled; eauto.
Qed.
End Compiled.
End Props.

Section Samples.
#[local] Existing Instance zfloat.
#[local] Existing Instance no_externs.

(** Composition of the maps t -> a t + b given by two arrays of coefficients:
    reduce((1.0, 0.0), lambda x, y: (x[0] * y[0], x[1] * y[0] + y[1]), a, b) *)
Definition arg1 : phi := PStore (SV 1) fvec_.
Definition px : phi := PStore (SV 10) rec_.
Definition py : phi := PStore (SV 11) rec_.
Definition compose_body : phi :=
  PCons (PBin BMul (PFirst px) (PFirst py)) (PBin BAdd (PBin BMul (PSecond px) (PFirst py)) (PSecond py)).
Definition compose_prog : phi := PReduce (PCons (cf 1) (cf 0)) 10 11 compose_body [arg0; arg1].
Definition coef_a : val := VArr (farr [5] [2; 3; 5; 7; 11]%Z).
Definition coef_b : val := VArr (farr [5] [1; 2; 3; 4; 5]%Z).
Definition G1 : tctx := upd (upd empty_env (SV 0) fvec_) (SV 1) fvec_.
Definition E1 : env := upd (upd empty_env (SV 0) coef_a) (SV 1) coef_b.
Definition R1 : yenv := upd (upd empty_env (SV 0) (YA (farr [5] [2; 3; 5; 7; 11]%Z))) (SV 1) (YA (farr [5] [1; 2; 3; 4; 5]%Z)).
Definition fpair (a b : Z) : val := VPair (VArr (ascalar (SF (a : F)))) (VArr (ascalar (SF (b : F)))).
Definition is_fpair (v : val) : Prop := exists a b, v = fpair a b.
Definition affine (u v : val) : val :=
  match u, v with
  | VPair (VArr a) (VArr b), VPair (VArr c) (VArr d) =>
      match adata a, adata b, adata c, adata d with
      | [SF a], [SF b], [SF c], [SF d] => fpair (a * c)%Z (b * c + d)%Z
      | _, _, _, _ => u
      end
  | _, _ => u
  end.
Definition affine_rows : list val := [fpair 2 1; fpair 3 2; fpair 5 3; fpair 7 4; fpair 11 5].
Definition no_tricks (st : bool) : flags := mkFlags false false false false false st.
Definition plain_code (st : bool) (e : phi) : yarr :=
  match lower (no_tricks st) no_sizes 20 e with Ok y => y | Err _ => YTuple [] end.

Example C03_compiled_example :
  well_formed G1 [0; 1] compose_prog /\ passed [0; 1] E1 R1 /\ env_typed G1 E1 /\
  monoid_on is_fpair affine (fpair 1 0) /\
  affine (fpair 2 1) (fpair 5 3) <> affine (fpair 5 3) (fpair 2 1) /\
  (forall k w, nth_error affine_rows k = Some w -> element [coef_a; coef_b] k w /\ is_fpair w) /\
  (forall a b, is_fpair a -> is_fpair b -> den (upd (upd E1 (SV 10) a) (SV 11) b) compose_body = Ok (affine a b)) /\
  (forall pk ez, safe_all (no_tricks true) no_sizes pk ez (fun _ => 1) E1 (PCons (cf 1) (cf 0)) /\
     Forall (safe_all (no_tricks true) no_sizes pk ez (fun _ => 1) E1) [arg0; arg1] /\
     forall a b t m, safe_all (no_tricks true) no_sizes pk ez (set_asg (fun _ => 1) t m) (upd (upd E1 (SV 10) a) (SV 11) b) compose_body) /\
  lower (no_tricks true) no_sizes 20 compose_prog = Ok (plain_code true compose_prog) /\
  fold_left affine affine_rows (fpair 1 0) = fpair 2310 2205 /\
  @yeval zfloat no_externs edge_pads R1 (plain_code true compose_prog)
  = Ok (YT [ascalar (SF (2310%Z : F)); ascalar (SF (2205%Z : F))]).
Proof.
  assert (AFF : forall a b c d, affine (fpair a b) (fpair c d) = fpair (a * c) (b * c + d)) by reflexivity.
  assert (EQ : forall a b c d : Z, a = c -> b = d -> fpair a b = fpair c d) by congruence.
  split; [|split; [|split; [|split; [|split; [|split; [|split; [|split; [|split; [|split]]]]]]]]].
  - split; [eexists; reflexivity|]. split.
    { simpl. repeat match goal with
        | |- _ /\ _ => split | |- exists _, _ => eexists | |- arr_wf _ => apply ascalar_wf | |- _ = _ => reflexivity
        | |- True => exact I | |- Forall _ _ => constructor end. }
    split; [simpl; repeat split; auto|]. split; [simpl; repeat split; auto|].
    split; [simpl; intuition congruence|].
    intros s. unfold G1, upd, empty_env. destruct (sym_eqb s (SV 1)) eqn:Q.
    { apply sym_eqb_eq in Q. subst. exists 1. simpl. auto. }
    destruct (sym_eqb s (SV 0)) eqn:Q0; [|congruence]. apply sym_eqb_eq in Q0. subst. exists 0. simpl. auto.
  - split; [reflexivity|]. intros z [<-|[<-|[]]]; [exists coef_a|exists coef_b]; (split; [reflexivity|]; split; [|reflexivity]);
      (split; [reflexivity|]; repeat constructor).
  - intros s t v. unfold G1, E1, upd, empty_env. destruct (sym_eqb s (SV 1)).
    + intros H1 H2. injection H1 as <-. injection H2 as <-. split; [|reflexivity]. split; [reflexivity|]. repeat constructor.
    + destruct (sym_eqb s (SV 0)); [|discriminate].
      intros H1 H2. injection H1 as <-. injection H2 as <-. split; [|reflexivity]. split; [reflexivity|]. repeat constructor.
  - split; [exists 1%Z, 0%Z; reflexivity|]. split; [|split].
    + intros ? ? (a & b & ->) (c & d & ->). rewrite AFF. eexists _, _. reflexivity.
    + intros ? ? ? (a & b & ->) (c & d & ->) (e & f & ->). rewrite !AFF. apply EQ; ring.
    + intros ? (a & b & ->). rewrite !AFF. split; apply EQ; ring.
  - vm_compute. discriminate.
  - intros k w H.
    assert (Q : exists a b, w = fpair a b /\ vget coef_a (Z.of_nat k) = Ok (VArr (ascalar (SF (a : F)))) /\
                            vget coef_b (Z.of_nat k) = Ok (VArr (ascalar (SF (b : F))))).
    { destruct k as [|[|[|[|[|k]]]]]; simpl in H; try (injection H as <-; eexists _, _; repeat split; reflexivity).
      destruct k; discriminate. }
    destruct Q as (a & b & -> & H1 & H2). split; [|exists a, b; reflexivity].
    eexists _, [_]. split; [constructor; [exact H1|constructor; [exact H2|constructor]]|reflexivity].
  - intros ? ? (a & b & ->) (c & d & ->). reflexivity.
  - intros pk ez. split; [|split].
    + intros [|[|f]]; simpl; auto.
    + repeat constructor; intros [|f]; simpl; auto.
    + intros a b t m [|[|[|[|[|f]]]]]; simpl; auto 10.
  - vm_compute. reflexivity.
  - vm_compute. reflexivity.
  - vm_compute. reflexivity.
Qed.

(** A record component that does not depend on the elements is not given the axis
    the reduction halves.
    reduce((0.0, 0.0), lambda x, y: (x[0] + y[0] + x[1], 0.0), a, z)
    with z full of zeros: a monoid on the pairs (t, 0), but the array code fails. *)
Definition zeros_prog : phi :=
  PReduce (PCons (cf 0) (cf 0)) 10 11
    (PCons (PBin BAdd (PBin BAdd (PFirst px) (PFirst py)) (PSecond px)) (cf 0)) [arg0; PVec 0 (ci 5) (cf 0)].
Definition first_sum (u v : val) : val :=
  match u, v with
  | VPair (VArr a) _, VPair (VArr c) _ =>
      match adata a, adata c with [SF a], [SF c] => fpair (a + c)%Z 0 | _, _ => u end
  | _, _ => u
  end.
Theorem C03_records_refuted :
  monoid_on (fun v => exists t, v = fpair t 0) first_sum (fpair 0 0) /\
  (forall t s, first_sum (fpair t 0) (fpair s 0) = fpair (t + s) 0) /\
  (forall t s, den (upd (upd E1 (SV 10) (fpair t 0)) (SV 11) (fpair s 0))
                 (PCons (PBin BAdd (PBin BAdd (PFirst px) (PFirst py)) (PSecond px)) (cf 0)) = Ok (fpair (t + s) 0)) /\
  den E1 zeros_prog = Ok (fpair 28 0) /\
  lower (no_tricks false) no_sizes 20 zeros_prog = Ok (plain_code false zeros_prog) /\
  @yeval zfloat no_externs edge_pads R1 (plain_code false zeros_prog) = Err EShape /\
  lower (no_tricks true) no_sizes 20 zeros_prog = Err EAssert.
Proof.
  assert (FS : forall t s, first_sum (fpair t 0) (fpair s 0) = fpair (t + s) 0) by reflexivity.
  assert (EQ : forall a b : Z, a = b -> fpair a 0 = fpair b 0) by congruence.
  split; [|split; [exact FS|split; [|split; [|split; [|split]]]]]; try (vm_compute; reflexivity).
  - split; [exists 0%Z; reflexivity|]. split; [|split].
    + intros ? ? (t & ->) (s & ->). rewrite FS. eexists. reflexivity.
    + intros ? ? ? (t & ->) (s & ->) (w & ->). rewrite !FS. apply EQ. ring.
    + intros ? (t & ->). rewrite !FS. split; apply EQ; ring.
  - intros t s. cbn -[Z.add]. rewrite Z.add_0_r. reflexivity.
Qed.
End Samples.

Print Assumptions C03_compiled.
Print Assumptions C03_records_refuted.
