(** Properties C44 and C45: array code on the torch and on the JAX backend
    (ein/backend/torch_backend.py, jax_backend.py, array_backend.py:84-255). *)
From Coq Require Import Sorted.
From Verif Require Import Base Scalar Tensor Types Sym Phi Den NdOps Term PhiTerm NdFacts DenFree DenWf Typing TypesFacts SpecPhi Lining Outline
  Dominators InlineMemo GenCheck Checkers OutlinePass OutlineTotal OutlineBinders OutlineHeads Yarr YTerm YWf Machine MachineSim MachineRun
  Soa SoaTyp SoaFacts SoaMain SoaWf Axial YOps AxialFacts AxialOps Codegen IndexOps CodegenSafe CodegenGet CodegenCtx CodegenCases CodegenCorrect
  CodegenSub Compile FastPad Cancel Pipeline CodegenMemo StrictCode CodegenLocal MemoSound Tidy CodeBinders CodeStage Torch Backend BackendRun
  CodeShape Sample PropArray PropMachine PropCodegen PropOutline PropPipeline PropMemo PropCompiled PropTorch.

Section Props.
Context {FO : FloatOps} {EX : Externs}.
#[local] Instance ref_pads : PadOps := nd_edge_pad.

Lemma ref_pad_wf : pad_wf.
Proof. intros a p b. apply nd_edge_pad_wf. Qed.

(** Code that is run: every binder is new, constants and arguments are arrays. *)
Definition runnable (X : list sym) (z : yarr) (R : yenv) : Prop :=
  yfresh X z /\ (forall s, R s <> None -> In s X) /\
  (forall s u, R s = Some u -> yval_wf u) /\ (forall a, sub_of (YConst a) z -> arr_wf a).

(** * C44: torch *)

(** The operations that are those of NumPy: axes inserted in increasing order,
    taken away one at a time, padding of vectors, and no gathering. *)
Definition torch_ready (z : yarr) : Prop := forall n, sub_of n z ->
  match n with
  | YUnsqueeze axes _ => StronglySorted lt axes
  | YSqueeze axes _ => exists k, axes = [k]
  | YGather _ _ _ => False
  | YPad _ l r => Nat.min (length l) (length r) = 1
  | _ => True
  end.

Lemma torch_fits refuses z up dn : torch_ready z ->
  (dn = true -> forall n, sub_of n z -> match n with YSqueeze _ _ | YReduce _ _ _ _ _ _ => False | _ => True end) ->
  fits up dn (torch refuses) z.
Proof.
  intros T N n Hn.
  assert (SQ : forall k a, dn <> true -> opsim up dn (torch_squeeze [k] a) (nd_squeeze [k] a)).
  { intros k a D. destruct (nd_squeeze [k] a) as [b|e] eqn:Q; [rewrite (C35_squeeze_single k a b Q); reflexivity|].
    destruct (torch_squeeze [k] a); [|exact I]. simpl. destruct dn; congruence. }
  specialize (T n Hn). assert (ND := fun H => N H n Hn). clear N. destruct n; cbn [fits1]; auto.
  - intros a Wa. destruct T as (k & ->). cbn [b_squeeze torch]. apply SQ. intros ->. destruct (ND eq_refl).
  - intros a Wa. cbn [b_unsqueeze torch]. destruct (torch_unsqueeze axes a) as [b|e] eqn:Q.
    + apply (C35_unsqueeze_as_numpy axes a b T Wa) in Q. rewrite Q. reflexivity.
    + destruct (nd_unsqueeze axes a) as [b|] eqn:Q'; [|exact I]. apply (C35_unsqueeze_as_numpy axes a b T Wa) in Q'. congruence.
  - destruct T.
  - intros a l0 Wa. apply opsim_refl.
  - intros a ps Wa L. rewrite T in L. cbn [b_pad torch]. unfold pad_call, ref_pads. destruct ps as [|q [|q' ps]]; try discriminate.
    destruct (Nat.eq_dec (arank a) 1) as [E|E].
    + destruct (torch_pad a [q]) as [b|e] eqn:Q.
      * apply (C38_symmetric a [q] b) in Q; [rewrite Q; reflexivity|unfold arank in E; lia|reflexivity].
      * destruct (nd_edge_pad a [q]) as [b|] eqn:Q'; [|exact I]. apply (C38_symmetric a [q] b) in Q'; [congruence|unfold arank in E; lia|reflexivity].
    + unfold torch_pad, nd_edge_pad. cbn [rev app length]. destruct (1 =? arank a) eqn:K; [apply Nat.eqb_eq in K; congruence|].
      destruct ((1 <=? arank a) && (arank a <=? 3)); exact I.
  - discriminate.
  - split; intros a Wa; cbn [b_squeeze b_unsqueeze torch].
    + cbn [torch_unsqueeze]. destruct (nd_unsqueeze [ax] a); reflexivity || exact I.
    + apply SQ. intros ->. destruct (ND eq_refl).
Qed.


Definition externs_wf : Prop := forall f l a, ext_call f l = Ok a -> arr_wf a.
Lemma run_both up dn B X z R : externs_wf -> (forall e R, b_refuses B e R = true -> up = false) -> runnable X z R ->
  fits up dn B z -> rel up dn [] R (bexec B z) (yeval R z).
Proof.
  intros XW REF (F & D & W & K) FT. apply (run_backend up dn B XW ref_pad_wf REF z X R). repeat (split; auto).
Qed.

(** Where the code has a value, torch computes it, and the environment is as before. *)
Theorem C44_torch X z R v : externs_wf -> runnable X z R -> torch_ready z ->
  yeval R z = Ok v -> exists R', bexec (torch (fun _ _ => false)) z R = Ok (v, R') /\ forall s, R' s = R s.
Proof.
  intros XW RN T H.
  assert (C : rel true false [] R (bexec (torch (fun _ _ => false)) z) (yeval R z)).
  { apply (run_both _ _ _ X); auto. apply torch_fits; auto; discriminate. }
  unfold rel in C. rewrite H in C. destruct (bexec _ z R) as [[w R']|]; [|discriminate C].
  destruct C as [<- A]. exists R'. split; [reflexivity|]. intros s. apply A. auto.
Qed.

(** Whatever element types torch refuses to compute with: where both return, the
    value is the same. *)
Theorem C44_torch_agrees refuses X z R R' v w : externs_wf -> runnable X z R -> torch_ready z ->
  yeval R z = Ok v -> bexec (torch refuses) z R = Ok (w, R') -> w = v /\ forall s, R' s = R s.
Proof.
  intros XW RN T H HB.
  assert (C : rel false false [] R (bexec (torch refuses) z) (yeval R z)).
  { apply (run_both _ _ _ X); auto. apply torch_fits; auto; discriminate. }
  unfold rel in C. rewrite H, HB in C. destruct C as [<- A]. split; [reflexivity|]. intros s. apply A. auto.
Qed.

(** Without the removal of axes, torch returns only what the code says. *)
Definition keeps_axes (z : yarr) : Prop :=
  forall n, sub_of n z -> match n with YSqueeze _ _ | YReduce _ _ _ _ _ _ => False | _ => True end.
Theorem C44_torch_only refuses X z R R' w : externs_wf -> runnable X z R -> torch_ready z -> keeps_axes z ->
  bexec (torch refuses) z R = Ok (w, R') -> yeval R z = Ok w.
Proof.
  intros XW RN T KA HB.
  assert (C : rel false true [] R (bexec (torch refuses) z) (yeval R z)).
  { apply (run_both _ _ _ X); auto. apply torch_fits; auto. }
  unfold rel in C. rewrite HB in C. destruct (yeval R z) as [v|]; [|discriminate]. destruct C as [<- _]. reflexivity.
Qed.

(** Gathering with an index array of the shape of the array, up to the size of
    the gathered axis, is the same on torch as on NumPy. *)
Lemma bzip_inb sh idx : inb sh idx -> bzip sh idx = idx.
Proof.
  unfold inb. induction 1 as [|k n idx sh Hk _ IH]; simpl; auto. rewrite IH. destruct (n =? 1) eqn:Q; auto.
  apply Nat.eqb_eq in Q. subst. f_equal. lia.
Qed.
Lemma bzip_set c : forall sha sh ax idx, set_nth ax 0 sha = set_nth ax 0 sh -> inb sh idx -> set_nth ax c (bzip sha idx) = set_nth ax c idx.
Proof.
  induction sha as [|d sha IH]; intros sh ax idx H B.
  - destruct sh; [|destruct ax; discriminate]. inversion B; subst. destruct ax; reflexivity.
  - destruct sh as [|d' sh]; [destruct ax; discriminate|]. inversion B as [|k ? idx' ? Hk B']; subst. destruct ax as [|ax]; simpl in H.
    + injection H as ->. simpl. f_equal. apply bzip_inb. auto.
    + injection H as -> H. simpl. rewrite (IH sh ax idx' H B'). f_equal. destruct (d' =? 1) eqn:Q; auto. apply Nat.eqb_eq in Q. lia.
Qed.
Lemma zip_same : forall sha sh ax, set_nth ax 0 sha = set_nth ax 0 sh -> ax < length sha -> zip_bdim (set_nth ax 1 sha) sh = Ok sh.
Proof.
  assert (R : forall sh, zip_bdim sh sh = Ok sh).
  { induction sh as [|d sh IH]; simpl; auto. unfold bdim. rewrite Nat.eqb_refl. cbn [of_opt bind]. rewrite IH. reflexivity. }
  induction sha as [|d sha IH]; intros sh ax H L; [simpl in L; lia|]. destruct sh as [|d' sh]; [destruct ax; discriminate|].
  destruct ax as [|ax]; simpl in H.
  - injection H as ->. unfold set_nth. cbn [zip_bdim]. rewrite R.
    assert (K : bdim 1 d' = Some d') by (unfold bdim; destruct (1 =? d') eqn:Q; [apply Nat.eqb_eq in Q; subst; auto|reflexivity]).
    rewrite K. reflexivity.
  - injection H as -> H. simpl. simpl in L. rewrite (IH sh ax H) by lia. unfold bdim. rewrite Nat.eqb_refl. reflexivity.
Qed.
Lemma set_nth_off : forall (sha sh : list nat) ax k, set_nth ax 0 sha = set_nth ax 0 sh -> k <> ax -> nth k sha 0 = nth k sh 0.
Proof.
  induction sha as [|d sha IH]; intros [|d' sh] ax k H N; try (destruct ax; discriminate); auto.
  destruct ax as [|ax]; simpl in H; [injection H as ->|injection H as -> H]; destruct k as [|k]; simpl; auto; [congruence|]. apply (IH sh ax); auto.
Qed.
Lemma set_nth_len : forall (sha sh : list nat) ax, set_nth ax 0 sha = set_nth ax 0 sh -> length sha = length sh.
Proof.
  induction sha as [|d sha IH]; intros [|d' sh] ax H; try (destruct ax; discriminate); auto.
  destruct ax as [|ax]; simpl in H; [injection H as ->; reflexivity|injection H as _ H; simpl; f_equal; apply (IH sh ax); auto].
Qed.

Theorem C44_gather ax (a item : arr) : set_nth ax 0 (ashape a) = set_nth ax 0 (ashape item) ->
  torch_gather ax a item = nd_gather ax a item.
Proof.
  intros H. unfold torch_gather, nd_gather. destruct (ax <? arank a) eqn:L; [|reflexivity]. cbn [guard bind]. apply Nat.ltb_lt in L.
  destruct (arank a =? arank item); [|reflexivity]. cbn [guard bind]. destruct (kind_eqb (akind item) KInt); [|reflexivity]. cbn [guard bind].
  replace (forallb _ (seq 0 (arank a))) with true.
  2: { symmetry. apply forallb_forall. intros k _. destruct (k =? ax) eqn:Q; auto. apply Nat.eqb_neq in Q.
       rewrite (set_nth_off _ _ ax k H Q). apply Nat.leb_le. lia. }
  cbn [guard bind]. destruct (_ || _); [|reflexivity]. cbn [guard bind]. rewrite (zip_same _ _ ax H L). cbn [bind]. f_equal.
  apply tab_ext. intros idx B. assert (LI : length idx = length (ashape item)) by (clear - B; induction B; simpl; auto).
  unfold bidx. rewrite (set_nth_len _ _ _ H), LI, Nat.sub_diag. cbn [skipn]. rewrite (bzip_set _ _ _ ax idx H B), (bzip_inb _ _ B). reflexivity.
Qed.

(** * C45: JAX *)

Lemma jax_fits gather0 take0 refuses z up dn : up = false ->
  (dn = true -> forall n, sub_of n z -> match n with YGather _ _ _ | YTake _ _ => False | _ => True end) ->
  fits up dn (jax gather0 take0 refuses) z.
Proof.
  intros -> N n Hn. assert (ND := fun H => N H n Hn). clear N. destruct n; cbn [fits1 jax b_squeeze b_unsqueeze b_gather b_take b_pad b_fori]; auto;
    try (split; intros; apply opsim_refl); try (intros; apply opsim_refl).
  - intros a i Wa. destruct (nd_gather ax a i); [reflexivity|]. destruct (gather0 ax a i); [|exact I]. simpl. destruct dn; auto. destruct (ND eq_refl).
  - intros a l Wa. destruct (nd_take a l); [reflexivity|]. destruct (take0 a l); [|exact I]. simpl. destruct dn; auto. destruct (ND eq_refl).
Qed.

(** Whatever JAX cannot trace, and whatever it returns for indices that are out
    of bounds: where both return, the value is the same. *)
Theorem C45_jax_agrees gather0 take0 refuses X z R R' v w : externs_wf -> runnable X z R ->
  yeval R z = Ok v -> bexec (jax gather0 take0 refuses) z R = Ok (w, R') -> w = v /\ forall s, R' s = R s.
Proof.
  intros XW RN H HB.
  assert (C : rel false false [] R (bexec (jax gather0 take0 refuses) z) (yeval R z)).
  { apply (run_both _ _ _ X); auto. apply jax_fits; auto; discriminate. }
  unfold rel in C. rewrite H, HB in C. destruct C as [<- A]. split; [reflexivity|]. intros s. apply A. auto.
Qed.

(** Without indexing by arrays, JAX returns only what the code says. *)
Definition no_indexing (z : yarr) : Prop :=
  forall n, sub_of n z -> match n with YGather _ _ _ | YTake _ _ => False | _ => True end.
Theorem C45_jax_only gather0 take0 refuses X z R R' w : externs_wf -> runnable X z R -> no_indexing z ->
  bexec (jax gather0 take0 refuses) z R = Ok (w, R') -> yeval R z = Ok w.
Proof.
  intros XW RN NI HB.
  assert (C : rel false true [] R (bexec (jax gather0 take0 refuses) z) (yeval R z)).
  { apply (run_both _ _ _ X); auto. apply jax_fits; auto. }
  unfold rel in C. rewrite HB in C. destruct (yeval R z) as [v|]; [|discriminate]. destruct C as [<- _]. reflexivity.
Qed.

(** * Programs *)

(** What is asked of a program and its environment: C41, C40. *)
Definition accepted (fl : flags) (orc : oracle) (fuel1 fuel2 nxt : nat) (p q : phi) (G : tctx) (X : list nat) (E : env) : Prop :=
  convertible G X p /\ env_typed G E /\
  strict fl = true /\ (use_reductions fl = true -> float_laws) /\ (use_einsum fl = true -> float_laws) /\
  struct_of_arrays fuel1 p = Ok q /\ safe_all fl orc (fun _ => true) true (fun _ => 1) E q /\
  compilable (code_flags fl) orc q /\ above nxt q /\ (forall x, In x X -> x < nxt) /\ weight q <= fuel2 /\
  exists y0, lower fl orc fuel2 q = Ok y0.

(** The code the torch and the JAX backend run (torch_backend.py:155-156,
    jax_backend.py:199-200). *)
Definition code_for (fl : flags) (orc : oracle) (fuel1 fuel2 nxt : nat) (p : phi) (y z : yarr) : Prop :=
  mtransform (code_flags fl) orc fuel1 fuel2 p = Ok y /\ outline nxt y = Ok z.

Lemma plain_head fl : head_prop (plain1 fl).
Proof.
  constructor; [|intros; exact I|intros; exact I]. intros t cs L H.
  destruct t; change (subs ?x) with (ysubs x) in L; change (rebuild ?x ?y) with (yrebuild x y); simpl in *; auto; try (destruct cs as [|? [|? [|? [|? ?]]]]; simpl in *; auto; discriminate).
Qed.
Definition const_ok (n : yarr) : Prop := match n with YConst a => arr_wf a | _ => True end.
Lemma const_head : head_prop const_ok.
Proof.
  constructor; [|intros; exact I|intros; exact I]. intros t cs L H. change (const_ok (yrebuild t cs)). change (length cs = length (ysubs t)) in L.
  destruct t; simpl in *; auto; try (destruct cs as [|? [|? [|? [|? ?]]]]; simpl in *; auto; discriminate).
Qed.

(** The code of an accepted program is ready to be run, and says what the program says. *)
Lemma code_ok fl orc fuel1 fuel2 nxt p q y z G X E R :
  accepted fl orc fuel1 fuel2 nxt p q G X E -> code_for fl orc fuel1 fuel2 nxt p y z ->
  externs_wf -> passed X E R -> (forall s, R s <> None -> exists x, s = SV x /\ In x X) ->
  runnable (map SV X) z R /\ plain fl z /\ (forall s, isfree s z <-> isfree s y) /\
  (forall v w, den E p = Ok v -> yeval R z = Ok w -> w = pack (vleaves v)).
Proof.
  intros (CV & ET & STR & RED & EIN & Q & SF & CP & AQ & XN & W & (y0 & L)) [TR O] EW PS HD.
  pose proof (C12_well_formed _ _ _ _ _ CV Q) as [WQ _]. assert (WQ' := WQ). destruct WQ' as (_ & SQ & _ & _ & FQ & _).
  assert (L' := C19_strict_is_code _ _ _ _ _ L).
  assert (CQ : compile (code_flags fl) orc fuel2 q = Ok y) by (unfold mtransform in TR; rewrite Q in TR; exact TR).
  pose proof (C43_bound_once _ _ _ _ _ CP W CQ) as DY.
  assert (YQ : y = cancel_tuple_ops (cancel_shape_ops y0)).
  { destruct (compile_lower _ _ _ _ _ CP W CQ) as (y1 & L1 & ->). congruence. }
  destruct CP as (DB & [NI NN] & NE & PE). pose proof (plain_or _ _ _ PE) as AC.
  assert (FY : yfresh (map SV X) y).
  { apply apart_yfresh. apply distinct_apart; auto.
    + intros n Hn. change (NoDup (ycapt n)). subst y. apply (exposes_capt _ tuple_exposes) in Hn as (d1 & Hn & ->).
      apply (exposes_capt _ shape_exposes) in Hn as (d2 & Hn & ->).
      apply (code_apart (code_flags fl) orc q DB NI NN NE AC fuel2 y0 W L' (map SV X) d2 (fresh_nodes q _ FQ) Hn).
    + intros n s Hn Hs. change (In s (ycapt n)) in Hs. subst y. apply (exposes_capt _ tuple_exposes) in Hn as (d1 & Hn & Q1).
      apply (exposes_capt _ shape_exposes) in Hn as (d2 & Hn & Q2). rewrite Q1, Q2 in Hs.
      apply (code_apart (code_flags fl) orc q DB NI NN NE AC fuel2 y0 W L' (map SV X) d2 (fresh_nodes q _ FQ) Hn); auto. }
  assert (AY : above nxt y).
  { subst y. apply exposes_above; [exact tuple_exposes|]. apply exposes_above; [exact shape_exposes|].
    exact (code_above (code_flags fl) orc q DB NI NN NE AC fuel2 y0 W L' nxt AQ). }
  assert (K0 : forall a, sub_of (YConst a) y0 -> arr_wf a).
  { intros a Ha. apply (code_consts (code_flags fl) orc q DB NI NN NE AC fuel2 y0 W L' a); auto. intros b. apply (scoped_consts q _ b SQ). }
  assert (KY : forall a, sub_of (YConst a) y -> arr_wf a).
  { intros a Ha. subst y. apply K0. apply (exposes_const _ shape_exposes). apply (exposes_const _ tuple_exposes). exact Ha. }
  destruct (C39_array_result y z nxt DY AY O) as (FR & DZ & _).
  assert (FZ : yfresh (map SV X) z).
  { apply apart_yfresh. apply (outline_apart nxt _ y z DY AY O (yfresh_nodes y _ FY)); auto.
    intros x Hx. apply in_map_iff in Hx as (x0 & Hy & Hx). injection Hy as <-. auto. }
  assert (SE : sane_env R).
  { intros s u Hu. destruct (HD s) as (x & -> & Hx); [congruence|]. destruct PS as [_ PS]. destruct (PS x Hx) as (u0 & _ & W0 & P).
    rewrite P in Hu. injection Hu as <-. apply pack_sane. auto. }
  split; [|split; [|split]].
  - split; [exact FZ|]. split; [|split].
    + intros s Hs. destruct (HD s Hs) as (x & -> & Hx). apply in_map. auto.
    + exact SE.
    + assert (HC : heads const_ok z).
      { apply (outline_heads const_ok const_head nxt y z DY AY O). intros n Hn. destruct n; simpl; auto. }
      intros a Ha. exact (HC _ Ha).
  - apply (outline_heads (plain1 fl) (plain_head fl) nxt y z DY AY O). subst y. apply (exposes_plain fl _ _ tuple_exposes).
    apply (exposes_plain fl _ _ shape_exposes). eapply lower_plain; eauto.
  - exact FR.
  - intros v w D YZ. destruct CV as (((t & T) & SC & II & EO & FB & _) & SH & HG & _).
    destruct (soa_ok fuel1 p q G E t v) as [DQ _]; auto. { eapply fresh_less; [|exact FB]. intros ? []. }
    assert (Y0 : yeval R y0 = Ok (pack (vleaves v))).
    { eapply (C19_compiled fl orc fuel2 q y0 (fun s => option_map soa_ty (G s)) E); eauto. apply env_SG. auto. }
    assert (SX : sane_externals) by (split; auto; intros a pd b; apply ref_pad_wf).
    assert (Y1 := C20_shape_cancellation y0 _ _ SX SE K0 Y0).
    assert (Y2 := C20_tuple_cancellation _ _ _ SX SE (fun a Ha => K0 a (shape_consts y0 a Ha)) Y1).
    rewrite <- YQ in Y2. exact (C39_array_value y z nxt R _ _ DY AY O Y2 YZ).
Qed.

(** The torch backend, on code without gathering: with [refuses], whatever
    element types torch does not compute with. *)
Definition torch_code (z : yarr) : Prop :=
  forall n, sub_of n z -> match n with YGather _ _ _ => False | YPad _ l r => Nat.min (length l) (length r) = 1 | _ => True end.
Theorem C44_torch_program refuses fl orc fuel1 fuel2 nxt p q y z G X E R R' v w :
  accepted fl orc fuel1 fuel2 nxt p q G X E -> code_for fl orc fuel1 fuel2 nxt p y z ->
  externs_wf -> passed X E R -> (forall s, R s <> None -> exists x, s = SV x /\ In x X) ->
  torch_code z -> keeps_axes z \/ (exists u, yeval R z = Ok u) ->
  den E p = Ok v -> bexec (torch refuses) z R = Ok (w, R') ->
  w = pack (vleaves v) /\ forall s, R' s = R s.
Proof.
  intros AC CF EW PS HD TC KA D H. destruct (code_ok _ _ _ _ _ _ _ _ _ _ _ _ _ AC CF EW PS HD) as (RN & PL & _ & SO).
  assert (TR : torch_ready z).
  { intros n Hn. specialize (PL n Hn). specialize (TC n Hn). destruct n; auto. }
  assert (V : exists u, yeval R z = Ok u).
  { destruct KA as [KA|V]; auto. exists w. exact (C44_torch_only refuses _ z R R' w EW RN TR KA H). }
  destruct V as (u & V). destruct (C44_torch_agrees refuses _ z R R' u w EW RN TR V H) as [-> A]. split; auto.
Qed.

(** The JAX backend hands over the free variables of the code
    (jax_backend.py:203-221). *)
Definition jax_call (B : backend) (free : list sym) (z : yarr) (R : yenv) : res yval :=
  let* _ := guard (forallb (fun s => match R s with Some _ => true | None => false end) free) EUnbound in
  let* r := bexec B z (fun s => if smem s free then R s else None) in Ok (fst r).
Theorem C45_jax_program gather0 take0 refuses fl orc fuel1 fuel2 nxt p q y z free G X E R v w :
  accepted fl orc fuel1 fuel2 nxt p q G X E -> code_for fl orc fuel1 fuel2 nxt p y z ->
  externs_wf -> passed X E R -> (forall s, R s <> None -> exists x, s = SV x /\ In x X) ->
  (forall s, In s free <-> isfree s y) -> no_indexing z \/ (exists u, yeval R z = Ok u) ->
  den E p = Ok v -> jax_call (jax gather0 take0 refuses) free z R = Ok w -> w = pack (vleaves v).
Proof.
  intros AC CF EW PS HD FR NI D H. destruct (code_ok _ _ _ _ _ _ _ _ _ _ _ _ _ AC CF EW PS HD) as (RN & PL & FZ & SO).
  unfold jax_call in H. apply bind_ok in H as (_ & _ & H). apply bind_ok in H as ([w' R'] & H & HW). injection HW as <-. cbn [fst].
  set (R0 := fun s => if smem s free then R s else None) in *.
  assert (RN0 : runnable (map SV X) z R0).
  { destruct RN as (A1 & A2 & A3 & A4). split; auto. split; [|split; auto].
    - intros s Hs. apply A2. unfold R0 in Hs. destruct (smem s free); congruence.
    - intros s u Hu. apply (A3 s). unfold R0 in Hu. destruct (smem s free); congruence. }
  assert (CO : forall s, isfree s z -> R0 s = R s).
  { intros s Hs. unfold R0. apply FZ, FR in Hs. apply smem_In in Hs. rewrite Hs. reflexivity. }
  assert (EQ : forall u, yeval R0 z = Ok u <-> yeval R z = Ok u).
  { intros u. split; intros K; [refine (sem_coincidence (sem := yeval) z R0 R _ u K)|refine (sem_coincidence (sem := yeval) z R R0 _ u K)];
      intros s Hs; rewrite (CO s Hs); auto. }
  assert (V : exists u, yeval R z = Ok u).
  { destruct NI as [NI|V]; auto. exists w'. apply EQ. exact (C45_jax_only gather0 take0 refuses _ z R0 R' w' EW RN0 NI H). }
  destruct V as (u & V). destruct (C45_jax_agrees gather0 take0 refuses _ z R0 R' u w' EW RN0 (proj2 (EQ u) V) H) as [-> _].
  exact (SO v u D V).
Qed.
End Props.

(** * Examples *)
Section Samples.
#[local] Existing Instance zfloat.
#[local] Existing Instance no_externs.
#[local] Existing Instance ref_pads.

Definition nodes_sat (f : yarr -> bool) (z : yarr) : bool := forallb f (gnodes z).
Lemma nodes_sat_ok f z n : nodes_sat f z = true -> sub_of n z -> f n = true.
Proof. unfold nodes_sat. rewrite forallb_forall. intros H Hn. apply H, gnodes_spec, Hn. Qed.

(** let y = x[None, :, None] in reduce of squeeze(y, 0) + ... : axes inserted and
    taken away, a vector padded, a loop, and a reduction *)
Definition mix_code : yarr :=
  let x := YVar 0 [(1, KFloat)] in
  let one := YConst (ascalar (SI 1)) in
  YLet 1 (YSqueeze [0] (YUnsqueeze [0; 2] x))
    (YFold 2 (YConst (ascalar (SI 2))) 3
       (YReduce (YConst (ascalar (SF (0%Z : F)))) 4 5 (YBin BAdd (YVar 4 [(1, KFloat)]) (YVar 5 [(1, KFloat)]) None)
                (YPad x [Some one] [None]) 0)
       (YBin BAdd (YVar 3 [(0, KFloat)])
                  (YReduceAxis RAdd 0 (YReduceAxis RAdd 0 (YVar 1 [(2, KFloat)]))) None)).
Lemma R0_in s : R0 s <> None -> s = SV 0.
Proof. unfold R0, upd, empty_env. destruct (sym_eqb s (SV 0)) eqn:Q; [|congruence]. apply sym_eqb_eq in Q. auto. Qed.
Lemma R0_wf s u : R0 s = Some u -> yval_wf u.
Proof.
  unfold R0, upd, empty_env. destruct (sym_eqb s (SV 0)); [|discriminate]. intros H. injection H as <-. split; [reflexivity|repeat constructor].
Qed.
Definition mix_ready (n : yarr) : bool :=
  match n with
  | YUnsqueeze axes _ => forallb (fun p => fst p <? snd p) (combine axes (tl axes)) && (length axes <=? 2)
  | YSqueeze axes _ => length axes =? 1
  | YGather _ _ _ => false
  | YPad _ l r => Nat.min (length l) (length r) =? 1
  | _ => true
  end.
Lemma mix_ready_ok z : nodes_sat mix_ready z = true -> torch_ready z.
Proof.
  intros H n Hn. apply (nodes_sat_ok _ _ _ H) in Hn. destruct n; simpl in Hn; auto.
  - destruct axes as [|k [|]]; try discriminate. eauto.
  - destruct axes as [|k [|k' [|]]]; simpl in Hn; rewrite ?andb_true_r, ?andb_false_r in Hn; try discriminate; repeat constructor. apply Nat.ltb_lt. exact Hn.
  - discriminate.
  - apply Nat.eqb_eq. exact Hn.
Qed.

Example C44_example :
  externs_wf /\ runnable [SV 0] mix_code R0 /\ torch_ready mix_code /\
  yeval R0 mix_code = Ok (YA (ascalar (SF (190%Z : F)))) /\
  exists R', bexec (torch (fun _ _ => false)) mix_code R0 = Ok (YA (ascalar (SF (190%Z : F))), R').
Proof.
  split; [intros f l a H; discriminate|]. split.
  { split; [cbn; intuition congruence|]. split; [intros s Hs; apply R0_in in Hs; simpl; auto|]. split; [exact R0_wf|].
    intros a Ha. apply (consts_wfb_ok mix_code); [vm_compute; reflexivity|exact Ha]. }
  split; [apply mix_ready_ok; vm_compute; reflexivity|]. split; [vm_compute; reflexivity|]. eexists. vm_compute. reflexivity.
Qed.

(** The program of C41_numpy_example, on torch and on JAX. *)
Lemma pipe_safe padk pade : safe_all takes_only no_sizes padk pade (fun _ => 1) E0 pipe_conv.
Proof.
  assert (X0 : forall N E f, E (SV 0) = Some (VArr (farr [3] [10; 20; 30]%Z)) -> forall i,
    safe takes_only no_sizes padk pade f N E (PGet arg0 (idx_ i))).
  { intros N E [|f] HE i; [exact I|]. cbn [safe]. split; [destruct f; exact I|]. split; [destruct f; exact I|].
    intros v n HV HD. unfold arg0 in HV. cbn [den] in HV. rewrite HE in HV. injection HV as <-. injection HD as <-. simpl. lia. }
  assert (D0 : forall N E f, safe takes_only no_sizes padk pade f N E (PDim arg0 0)) by (intros N E [|[|f]]; exact I).
  intros [|f]; [exact I|]. cbn [safe pipe_conv]. split.
  - destruct f as [|f]; [exact I|]. cbn [safe]. split; [|split; [destruct f; exact I|]].
    + destruct f as [|f]; [exact I|]. cbn [safe]. split; [apply D0|]. intros v z HV HZ. injection HV as <-. injection HZ as <-.
      split; [lia|]. intros k _. destruct f as [|f]; [exact I|]. cbn [safe]. split; [|apply X0; reflexivity].
      destruct f as [|f]; [exact I|]. cbn [safe]. split; apply X0; reflexivity.
    + intros v n HV HD. vm_compute in HV. injection HV as <-. injection HD as <-. simpl. lia.
  - destruct f as [|f]; [exact I|]. cbn [safe]. split; [|split; [destruct f; exact I|]].
    + destruct f as [|f]; [exact I|]. cbn [safe]. split; [apply D0|]. intros v z HV HZ. injection HV as <-. injection HZ as <-.
      split; [lia|]. intros k _. destruct f as [|f]; [exact I|]. cbn [safe]. split; [apply X0; reflexivity|destruct f; exact I].
    + intros v n HV HD. vm_compute in HV. injection HV as <-. injection HD as <-. simpl. lia.
Qed.
Lemma pipe_accepted : accepted takes_only no_sizes 20 40 1 pipe_prog pipe_conv G0 [0] E0.
Proof.
  destruct C41_numpy_compiled_example as (CV & ET & Q & _ & CP & AQ & W & L & _).
  split; [exact CV|]. split; [exact ET|]. split; [reflexivity|]. split; [discriminate|]. split; [discriminate|]. split; [exact Q|].
  split; [apply pipe_safe|]. split; [exact CP|]. split; [exact AQ|]. split; [intros x [<-|[]]; lia|]. split; [exact W|exact L].
Qed.
Lemma pipe_passed : passed [0] E0 R0 /\ forall s, R0 s <> None -> exists x, s = SV x /\ In x [0].
Proof.
  split; [|intros s Hs; apply R0_in in Hs; exists 0; simpl; auto].
  split; [reflexivity|]. intros x [<-|[]]. exists (VArr (farr [3] [10; 20; 30]%Z)). split; [reflexivity|]. split; [|reflexivity].
  split; [reflexivity|]. repeat constructor.
Qed.
(** x[range(n)] is computed once; nothing is computed in place *)
Definition pipe_outlined : yarr :=
  let x := YTake (YVar 0 [(1, KFloat)]) [Some (YRange (YDim 0 (YVar 0 [(1, KFloat)])))] in
  let y := YVar 1 [(1, KFloat)] in
  let one := [Some (YConst (ascalar (SI 1)))] in
  YLet 1 x (YTuple [YTake (YBin BAdd (YBin BMul y y None) y None) one;
                    YTake (YBin BAdd y (YConst (ascalar (SF (1%Z : F)))) None) one]).
Lemma pipe_code_for : code_for takes_only no_sizes 20 40 1 pipe_prog pipe_code pipe_outlined.
Proof. split; vm_compute; reflexivity. Qed.

Example C44_program_example :
  accepted takes_only no_sizes 20 40 1 pipe_prog pipe_conv G0 [0] E0 /\
  code_for takes_only no_sizes 20 40 1 pipe_prog pipe_code pipe_outlined /\
  passed [0] E0 R0 /\ (forall s, R0 s <> None -> exists x, s = SV x /\ In x [0]) /\
  torch_code pipe_outlined /\ keeps_axes pipe_outlined /\ den E0 pipe_prog = Ok pipe_val /\
  exists R', bexec (torch (fun _ _ => false)) pipe_outlined R0 = Ok (YT [ascalar (SF (420%Z : F)); ascalar (SF (21%Z : F))], R').
Proof.
  destruct pipe_passed as [P1 P2]. split; [exact pipe_accepted|]. split; [exact pipe_code_for|]. split; [exact P1|]. split; [exact P2|].
  split. { intros n Hn. apply (nodes_sat_ok (fun n => match n with YGather _ _ _ | YPad _ _ _ => false | _ => true end)) in Hn; [|vm_compute; reflexivity].
    destruct n; auto; discriminate. }
  split. { intros n Hn. apply (nodes_sat_ok (fun n => match n with YSqueeze _ _ | YReduce _ _ _ _ _ _ => false | _ => true end)) in Hn; [|vm_compute; reflexivity].
    destruct n; auto; discriminate. }
  split; [vm_compute; reflexivity|]. eexists. vm_compute. reflexivity.
Qed.

Definition no_gather0 (ax : nat) (a i : arr) : res arr := Err EShape.
Definition no_take0 (a : arr) (l : list (option arr)) : res arr := Err EShape.
(** JAX refuses to make a range of the length of an array. *)
Definition no_ranges (e : yarr) (_ : yenv) : bool := match e with YRange _ => true | _ => false end.
Example C45_example :
  runnable [SV 0] mix_code R0 /\ yeval R0 mix_code = Ok (YA (ascalar (SF (190%Z : F)))) /\ no_indexing mix_code /\
  (exists R', bexec (jax no_gather0 no_take0 no_ranges) mix_code R0 = Ok (YA (ascalar (SF (190%Z : F))), R')) /\
  bexec (jax no_gather0 no_take0 no_ranges) pipe_outlined R0 = Err EType.
Proof.
  destruct C44_example as (_ & RN & _ & V & _). split; [exact RN|]. split; [exact V|]. split.
  { intros n Hn. apply (nodes_sat_ok (fun n => match n with YGather _ _ _ | YTake _ _ => false | _ => true end)) in Hn; [|vm_compute; reflexivity].
    destruct n; auto; discriminate. }
  split; [eexists; vm_compute; reflexivity|]. vm_compute. reflexivity.
Qed.
Example C45_program_example :
  accepted takes_only no_sizes 20 40 1 pipe_prog pipe_conv G0 [0] E0 /\
  code_for takes_only no_sizes 20 40 1 pipe_prog pipe_code pipe_outlined /\
  passed [0] E0 R0 /\ (forall s, R0 s <> None -> exists x, s = SV x /\ In x [0]) /\
  (forall s, In s [SV 0] <-> isfree s pipe_code) /\ (exists u, yeval R0 pipe_outlined = Ok u) /\ den E0 pipe_prog = Ok pipe_val /\
  jax_call (jax no_gather0 no_take0 (fun _ _ => false)) [SV 0] pipe_outlined R0 = Ok (YT [ascalar (SF (420%Z : F)); ascalar (SF (21%Z : F))]).
Proof.
  destruct pipe_passed as [P1 P2]. split; [exact pipe_accepted|]. split; [exact pipe_code_for|]. split; [exact P1|]. split; [exact P2|].
  split. { intros s. split.
    - intros [<-|[]]. unfold pipe_code. do 5 (eapply (free_sub _ _ 0); [reflexivity|reflexivity| |intros []]). apply free_sym. reflexivity.
    - intros H. apply free_node in H as (n & Hn & Q).
      apply (nodes_sat_ok (fun n => match ysym n with Some s => sym_eqb s (SV 0) | None => true end)) in Hn; [|vm_compute; reflexivity].
      change (ysym n = Some s) in Q. rewrite Q in Hn. apply sym_eqb_eq in Hn. subst s. simpl. auto. }
  split; [eexists; vm_compute; reflexivity|]. split; vm_compute; reflexivity.
Qed.

Example C44_gather_example :
  let a := farr [2; 3] [1; 2; 3; 4; 5; 6]%Z in let item := iarr [2; 2] [2; -1; 9; 1]%Z in
  set_nth 1 0 (ashape a) = set_nth 1 0 (ashape item) /\ torch_gather 1 a item = Ok (farr [2; 2] [3; 1; 6; 5]%Z).
Proof. split; reflexivity. Qed.

(** [torch.gather] does not broadcast (array_indexing.py:158-177 relies on it):
    of array(lambda i, j: a[i, j, x[i]]) torch computes one column.  The same code
    is right with NumPy's operations. *)
Definition pick_prog : phi :=
  let a := PStore (SV 0) (TVec (TVec (TVec (TScalar KFloat)))) in let x := PStore (SV 1) (TVec (TScalar KInt)) in
  PVec 0 (PDim x 0) (PVec 1 (PDim a 1) (PGet (PGet (PGet a (idx_ 0)) (idx_ 1)) (PGet x (idx_ 0)))).
Definition pick_env : env := upd (upd empty_env (SV 0) (VArr (farr [2; 2; 2] [1; 2; 3; 4; 5; 6; 7; 8]%Z))) (SV 1) (VArr (iarr [2] [1; 0]%Z)).
Definition pick_args : yenv := upd (upd empty_env (SV 0) (YA (farr [2; 2; 2] [1; 2; 3; 4; 5; 6; 7; 8]%Z))) (SV 1) (YA (iarr [2] [1; 0]%Z)).
Definition pick_code : yarr :=
  match mtransform (code_flags takes_only) no_sizes 20 40 pick_prog with Ok y => y | Err _ => YTuple [] end.
Definition pick_outlined : yarr := match outline 2 pick_code with Ok z => z | Err _ => YTuple [] end.
Theorem C44_gather_refuted :
  passed [0; 1] pick_env pick_args /\
  den pick_env pick_prog = Ok (VArr (farr [2; 2] [2; 4; 5; 7]%Z)) /\
  exists y z, code_for takes_only no_sizes 20 40 2 pick_prog y z /\
    yeval pick_args z = Ok (YA (farr [2; 2] [2; 4; 5; 7]%Z)) /\
    exists R', bexec (torch (fun _ _ => false)) z pick_args = Ok (YA (farr [2; 1] [2; 5]%Z), R').
Proof.
  split. { split; [reflexivity|]. intros x [<-|[<-|[]]]; eexists; (split; [reflexivity|]); (split; [|reflexivity]); (split; [reflexivity|repeat constructor]). }
  split; [vm_compute; reflexivity|]. exists pick_code, pick_outlined. split; [split; vm_compute; reflexivity|]. split; [vm_compute; reflexivity|].
  eexists. vm_compute. reflexivity.
Qed.
End Samples.

Print Assumptions C44_torch.
Print Assumptions C44_torch_agrees.
Print Assumptions C44_torch_only.
Print Assumptions C44_torch_program.
Print Assumptions C44_gather.
Print Assumptions C44_gather_refuted.
Print Assumptions C45_jax_agrees.
Print Assumptions C45_jax_only.
Print Assumptions C45_jax_program.
