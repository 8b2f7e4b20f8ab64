(** Property C23: sums of products compiled to einsum. *)
From Coq Require Import ZArithRing InitialRing.
From Verif Require Import Base Scalar Tensor Types Sym Phi Den Term PhiTerm DenFree SpecPhi Lining TypesFacts Typing DenWf Naive
  Sizes ClipShift NdOps NdFacts Yarr Axial AxialFacts AxialOps Codegen IndexOps YOps CodegenSafe CodegenGet CodegenCtx
  CodegenCases CodegenAxes CodegenCorrect CodegenSub CodegenRed Lift SumFacts LiftSem Subscripts EinOps CodegenEin CodegenGo
  FastPad Compile StrictCode Sample PropAxes PropCodegen PropReduce.

Section Props.
Context {FO : FloatOps} {EX : Externs}.

Definition sum_of (l : list F) : F := fold_right fadd (f_of_Z 0) l.
Definition product_of (l : list F) : F := fold_right fmul (f_of_Z 1) l.
(** The environment with values for the counters. *)
Definition counting (E : env) (cs ks : list nat) : env := upds E (combine (map SV cs) (map vnat ks)).
(** One product of the lifted sum: the product of its factors, summed over all
    values of the counters that occur in it. *)
Definition contraction (ct : list (nat * phi)) (E : env) (factors : list phi) : F :=
  let over := filter (fun q => existsb (fun a => smem (SV (fst q)) (fsyms a)) factors) ct in
  sum_of (map (fun ks => product_of (map (fun a => fof (dval (counting E (map fst over) ks) a)) factors))
              (all_idx (map (fun q => natof E (snd q)) over))).

Lemma counting_cons E c cs k ks : counting E (c :: cs) (k :: ks) = counting (upd E (SV c) (vnat k)) cs ks.
Proof. reflexivity. Qed.

Lemma csum_list (L : float_laws) cs g : forall E,
  csum cs g E = sum_of (map (fun ks => g (counting E (map fst cs) ks)) (all_idx (map snd cs))).
Proof.
  induction cs as [|[c n] cs IH]; intros E.
  - simpl. rewrite (Radd_comm (f_ring L)), (Radd_0_l (f_ring L)). reflexivity.
  - cbn [csum map fst snd all_idx]. rewrite <- (suml_seq L).
    assert (Q : forall l, suml (map (fun k => csum cs g (upd E (SV c) (vnat k))) l) =
      sum_of (map (fun ks => g (counting E (c :: map fst cs) ks)) (flat_map (fun i => map (cons i) (all_idx (map snd cs))) l))).
    { induction l as [|k l IHl]; auto. cbn [map flat_map]. rewrite map_app. change sum_of with suml in *. rewrite (suml_app L), <- IHl.
      simpl. f_equal. rewrite IH, map_map. reflexivity. }
    apply Q.
Qed.

(** The lifted form of an expression has the value of the expression, when every
    product of a sum depends on its counter, the summands do not use the
    accumulator and inner sizes do not depend on outer counters ([lift_sound]). *)
Theorem C23_value (E : env) e d (G : tctx) X v :
  float_laws ->
  lift e = Ok d -> lift_sound e = true ->
  typ e = Ok (TScalar KFloat) -> scoped G e -> int_indices e -> exts_ok e -> fresh_binders X e ->
  (forall s, G s <> None -> In s X) -> env_typed G E ->
  den E e = Ok v ->
  v = VArr (ascalar (SF (sum_of (map (contraction (contract d) E) (products d))))).
Proof.
  intros LAWS LF LSO T SC II EO FB DI ET D.
  assert (LI : lifts true e d) by (eapply lift_lifts; eauto).
  assert (PR : pre G X e) by (constructor; auto).
  rewrite (lifts_sem LAWS e d LI G X E v DI PR ET D). unfold vfloat, dsum. do 3 f_equal.
  change sum_of with suml. f_equal. apply map_ext. intros p. unfold pterm. rewrite (csum_list LAWS).
  unfold contraction, own. rewrite !map_map. cbn [fst snd]. reflexivity.
Qed.

(** Compiled programs with einsum. *)
Theorem C23_compiled fl orc fuel e y (G : tctx) (E : env) (r : yenv) X v :
  let PO : PadOps := nd_edge_pad in
  float_laws -> use_einsum fl = true -> strict fl = true ->
  lower fl orc fuel e = Ok y -> well_formed G X e -> passed X E r -> env_typed G E ->
  safe_all fl orc (fun _ => true) true (fun _ => 1) E e ->
  den E e = Ok v -> yeval r y = Ok (pack (vleaves v)).
Proof. intros PO LAWS EIN. apply C19_compiled; auto. Qed.
End Props.

Section Samples.
#[local] Existing Instance zfloat.
#[local] Existing Instance no_externs.

(** phi_to_yarr.py:25-35 with einsum, without reductions *)
Definition with_einsum (st : bool) : flags := mkFlags true true true false true st.
Definition ein_code (st : bool) (e : phi) : yarr :=
  match lower (with_einsum st) same_sizes 30 e with Ok y => y | Err _ => YTuple [] end.

Definition ctr (c : nat) : phi := PStore (SV c) (TScalar KInt).
Definition at_ctr (c : nat) : phi := PGet arg0 (ctr c).
(** fold(0.0, lambda c, acc: acc + elem, count=a.size(0)) *)
Definition total (c acc : nat) (elem : phi) : phi :=
  PFold c (PDim arg0 0) acc (cf 0) (PBin BAdd (PStore (SV acc) (TScalar KFloat)) elem).

(** the sum of a[k] * a[k] - a[k] * 3.0 * (the sum of a[j]) *)
Definition dot_prog : phi :=
  total 1 2 (PBin BSub (PBin BMul (at_ctr 1) (at_ctr 1))
                       (PBin BMul (PBin BMul (at_ctr 1) (cf 3)) (total 3 4 (at_ctr 3)))).
Example C23_value_example :
  lift dot_prog = Ok (mkDot [(3, PDim arg0 0); (1, PDim arg0 0)]
                            [[at_ctr 1; at_ctr 1]; [PUn UNeg (at_ctr 1); cf 3; at_ctr 3]]) /\
  lift_sound dot_prog = true /\ scoped G0 dot_prog /\ fresh_binders [SV 0] dot_prog /\
  den E0 dot_prog = Ok (VArr (ascalar (SF ((-9400)%Z : F)))) /\
  contraction [(3, PDim arg0 0); (1, PDim arg0 0)] E0 [at_ctr 1; at_ctr 1] = 1400%Z /\
  contraction [(3, PDim arg0 0); (1, PDim arg0 0)] E0 [PUn UNeg (at_ctr 1); cf 3; at_ctr 3] = (-10800)%Z /\
  exists y, lower (with_einsum true) same_sizes 30 dot_prog = Ok y /\
    (exists s1 l1 s2 l2, y = YBin BAdd (YUnsqueeze [] (YTranspose [] (YEinsum s1 l1)))
                                       (YUnsqueeze [] (YTranspose [] (YEinsum s2 l2))) None) /\
    @yeval zfloat no_externs edge_pads R0 y = Ok (YA (ascalar (SF ((-9400)%Z : F)))).
Proof.
  split; [reflexivity|]. split; [reflexivity|]. split.
  { simpl. repeat match goal with
        | |- _ /\ _ => split | |- exists _, _ => eexists | |- arr_wf _ => apply ascalar_wf | |- _ = _ => reflexivity end. }
  split; [simpl; intuition congruence|].
  split; [vm_compute; reflexivity|]. split; [vm_compute; reflexivity|]. split; [vm_compute; reflexivity|].
  exists (ein_code true dot_prog). split; [vm_compute; reflexivity|]. split; [|vm_compute; reflexivity].
  do 4 eexists. vm_compute. reflexivity.
Qed.

(** the sum of a[k] * a[k] *)
Definition square_prog : phi := total 1 2 (PBin BMul (at_ctr 1) (at_ctr 1)).
Example C23_compiled_example :
  (exists y s l, lower (with_einsum true) same_sizes 30 square_prog = Ok y /\
     y = YUnsqueeze [] (YTranspose [] (YEinsum s l))) /\
  well_formed G0 [0] square_prog /\ passed [0] E0 R0 /\ env_typed G0 E0 /\
  safe_all (with_einsum true) same_sizes (fun _ => true) true (fun _ => 1) E0 square_prog.
Proof.
  split; [do 3 eexists; split; vm_compute; reflexivity|].
  destruct C22_compiled_example as (_ & PS & ET & _).
  split; [|split; [exact PS|split; [exact ET|]]].
  - split; [eexists; reflexivity|]. split.
    { simpl. repeat match goal with
        | |- _ /\ _ => split | |- exists _, _ => eexists | |- arr_wf _ => apply ascalar_wf | |- _ = _ => reflexivity end. }
    split; [simpl; repeat split; auto|]. split; [simpl; repeat split; auto|].
    split; [simpl; intuition congruence|].
    intros s. unfold G0, upd, empty_env. destruct (sym_eqb s (SV 0)) eqn:Q; [|congruence].
    apply sym_eqb_eq in Q. subst. exists 0. simpl. auto.
  - intros [|f]; [exact I|]. unfold square_prog, total. cbn [safe]. split; [destruct f as [|[|f]]; exact I|]. split; [destruct f; exact I|].
    split; [|split; [discriminate|]].
    + intros v z k w HV HZ Hk HW. destruct f as [|f]; [exact I|]. cbn [safe]. split; [destruct f; exact I|].
      assert (Q : forall f E, E (SV 0) = E0 (SV 0) -> safe (with_einsum true) same_sizes (fun _ => true) true f (fun _ => 1) E (at_ctr 1)).
      { intros [|f'] E' HE; [exact I|]. cbn [safe at_ctr]. split; [destruct f'; exact I|]. split; [destruct f'; exact I|].
        intros u n Hu Hn. destruct (arg0_size _ _ _ HE Hu Hn) as [-> _]. cbn. lia. }
      destruct f as [|f]; [exact I|]. cbn [safe]. split; apply Q; reflexivity.
    + intros _ d is LF LI ND FR. change (lift (total 1 2 (PBin BMul (at_ctr 1) (at_ctr 1))) = Ok d) in LF.
      change (lift (total 1 2 (PBin BMul (at_ctr 1) (at_ctr 1)))) with (@Ok dot (mkDot [(1, PDim arg0 0)] [[at_ctr 1; at_ctr 1]])) in LF.
      assert (d = mkDot [(1, PDim arg0 0)] [[at_ctr 1; at_ctr 1]]) by congruence. subst d. cbn [contract products] in *.
      destruct is as [|i [|? ?]]; try discriminate. split.
      * constructor; [|constructor]. split; [destruct f as [|[|f]]; exact I|]. exists 3%Z. split; [|lia]. eexists. split; reflexivity.
      * intros ns ks F1 F2 args a [<-|[]] Ha. inversion F1 as [|? n ? ? Hn F1']; subst. inversion F1'; subst.
        inversion F2 as [|k ? ? ? Hk F2']; subst. inversion F2'; subst.
        assert (n = 3). { destruct Hn as (v & D & S). injection D as <-. injection S as S. lia. } subst n.
        assert (QA : substitute a (combine (map (fun p : nat * phi => SV (fst p)) [(1, PDim arg0 0)]) (map p_at [i])) = PGet arg0 (p_at i)).
        { destruct Ha as [<-|[<-|[]]]; reflexivity. }
        cbv zeta. rewrite QA. cbn [bind_idx set_asgs]. split.
        -- destruct f as [|f]; [exact I|]. cbn [safe]. split; [destruct f; exact I|]. split; [destruct f; exact I|].
           intros u m Hu Hm. destruct (arg0_size _ _ _ eq_refl Hu Hm) as [-> ->].
           cbn [with_einsum use_slice_pads use_slice_elision]. rewrite index_shift.
           change (smem (SX i) (free_indices arg0)) with false. cbn [same_sizes eq_index andb is_none].
           split; [lia|]. split; [rewrite set_asg_eq; cbv; lia|]. split; [auto|]. split; discriminate.
        -- unfold arg0, p_at. cbn [den]. rewrite upd_eq, upd_neq by discriminate.
           destruct k as [|[|[|k]]]; [eexists; reflexivity..|simpl in Hk; lia].
Qed.

(** A summand that does not depend on the counter is added once:
    the sum of a[k] * a[k] + 1.0 *)
Definition plus_one_prog : phi := total 1 2 (PBin BAdd (PBin BMul (at_ctr 1) (at_ctr 1)) (cf 1)).
Theorem C23_multiplicity_refuted :
  exists y, lower (with_einsum false) same_sizes 30 plus_one_prog = Ok y /\
    den E0 plus_one_prog = Ok (VArr (ascalar (SF (1403%Z : F)))) /\
    @yeval zfloat no_externs edge_pads R0 y = Ok (YA (ascalar (SF (1401%Z : F)))).
Proof. exists (ein_code false plus_one_prog). repeat split; vm_compute; reflexivity. Qed.

(** An inner sum whose length depends on the outer counter:
    the sum over k, and over j below m[k].size(0), of m[k][j] * m[k][j];
    the size is computed outside of any loop over k. *)
Definition mat0 : phi := PStore (SV 0) (TVec fvec_).
Definition rows_prog : phi :=
  PFold 1 (PDim mat0 0) 2 (cf 0) (PBin BAdd (PStore (SV 2) (TScalar KFloat))
    (PFold 3 (PDim (PGet mat0 (ctr 1)) 0) 4 (cf 0) (PBin BAdd (PStore (SV 4) (TScalar KFloat))
      (PBin BMul (PGet (PGet mat0 (ctr 1)) (ctr 3)) (PGet (PGet mat0 (ctr 1)) (ctr 3)))))).
Theorem C23_inner_size_refuted :
  exists y, lower (with_einsum false) same_sizes 30 rows_prog = Ok y /\
    den (upd empty_env (SV 0) (VArr (farr [2; 2] [1; 2; 3; 4]%Z))) rows_prog = Ok (VArr (ascalar (SF (30%Z : F)))) /\
    @yeval zfloat no_externs edge_pads (upd empty_env (SV 0) (YA (farr [2; 2] [1; 2; 3; 4]%Z))) y = Err EUnbound.
Proof. exists (ein_code false rows_prog). repeat split; vm_compute; reflexivity. Qed.

(** A sum used both as a summand and inside a factor: with t(j) the sum of
    a[k] * a[j], the sum of t(j) * a[j] + max(t(j), 1000.0) * a[j].  The counter k is
    replaced also where the factor binds it itself. *)
Definition t_ (j : nat) : phi := total 3 4 (PBin BMul (at_ctr 3) (at_ctr j)).
Definition shared_prog : phi :=
  total 1 2 (PBin BAdd (PBin BMul (t_ 1) (at_ctr 1)) (PBin BMul (PBin BMax (t_ 1) (cf 1000)) (at_ctr 1))).
Theorem C23_shared_refuted :
  exists y, lower (with_einsum false) same_sizes 30 shared_prog = Ok y /\
    den E0 shared_prog = Ok (VArr (ascalar (SF (172000%Z : F)))) /\
    @yeval zfloat no_externs edge_pads R0 y = Ok (YA (ascalar (SF (264000%Z : F)))).
Proof. exists (ein_code false shared_prog). repeat split; vm_compute; reflexivity. Qed.

(** A factor with a comprehension whose size depends on the counter, the sum of
    float(b[k]) * array(lambda i: 1.0, size=b[k])[0]: the attempt to build the
    einsum raises, while a loop could be compiled. *)
Definition ints0 : phi := PStore (SV 0) (TVec (TScalar KInt)).
Definition sized_prog : phi :=
  PFold 1 (PDim ints0 0) 2 (cf 0) (PBin BAdd (PStore (SV 2) (TScalar KFloat))
    (PBin BMul (PUn UFloat (PGet ints0 (ctr 1))) (PGet (PVec 3 (PGet ints0 (ctr 1)) (cf 1)) (ci 0)))).
Theorem C23_fallback_refuted :
  typ sized_prog = Ok (TScalar KFloat) /\
  den (upd empty_env (SV 0) (VArr (iarr [2] [4; 5]%Z))) sized_prog = Ok (VArr (ascalar (SF (9%Z : F)))) /\
  lower (with_einsum false) same_sizes 30 sized_prog = Err EType /\
  exists y, lower (loops_only false) same_sizes 30 sized_prog = Ok y /\
    @yeval zfloat no_externs edge_pads (upd empty_env (SV 0) (YA (iarr [2] [4; 5]%Z))) y = Ok (YA (ascalar (SF (9%Z : F)))).
Proof.
  split; [reflexivity|]. split; [vm_compute; reflexivity|]. split; [vm_compute; reflexivity|].
  eexists. split; vm_compute; reflexivity.
Qed.
End Samples.

Print Assumptions C23_value.
Print Assumptions C23_compiled.
Print Assumptions C23_multiplicity_refuted.
Print Assumptions C23_inner_size_refuted.
Print Assumptions C23_shared_refuted.
Print Assumptions C23_fallback_refuted.
