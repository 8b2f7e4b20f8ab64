(** Which axes the translation of a term has. *)
From Verif Require Import Base Scalar Tensor Types Sym Phi Den Term PhiTerm DenFree SpecPhi Lining TypesFacts Typing DenWf Naive
  Sizes ClipShift NdOps NdFacts Yarr Axial AxialFacts AxialOps Codegen IndexOps YOps CodegenSafe CodegenGet CodegenCtx CodegenCases Subst Lift.

Ltac peel H := cbv zeta in H;
  repeat match type of H with bind _ _ = Ok _ => let z := fresh in apply bind_ok in H as (z & _ & H) end.

Section Axes.
Context {FO : FloatOps}.
Variable fl : flags.
Variable orc : oracle.

Definition axis_of (vax : var_axes) (e : phi) (x : nat) : Prop :=
  In (SX x) (fsyms e) \/ exists y, In x (axes_of vax y).

Definition axes_ok (vax : var_axes) (e : phi) (a : axial) : Prop :=
  NoDup (ax_axes a) /\ forall x, In x (ax_axes a) -> axis_of vax e x.

Lemma axis_of_sub vax e e' x : incl (fsyms e) (fsyms e') -> axis_of vax e x -> axis_of vax e' x.
Proof. intros H [A|A]; [left; auto|right; auto]. Qed.

Lemma axes_ok_mk ax y a vax e : mk_axial ax y = Ok a -> (forall x, In x ax -> axis_of vax e x) -> axes_ok vax e a.
Proof. intros H K. apply mk_axial_inv in H as (-> & ND & _). split; auto. Qed.

Lemma axis_bind x ax vax e y : (forall z, In z ax -> axis_of vax e z) ->
  (exists w, In y (axes_of ((x, ax) :: vax) w)) -> axis_of vax e y.
Proof.
  intros H (w & Hw). rewrite axes_of_cons in Hw. destruct (x =? w); auto. right. eauto.
Qed.

Lemma general_get_axes t i a vax e : general_get t i = Ok a -> (forall x, In x (ax_axes t) -> axis_of vax e x) ->
  (forall x, In x (ax_axes i) -> axis_of vax e x) -> axes_ok vax e a.
Proof.
  unfold general_get. intros H Ht Hi. apply bind_ok in H as (z1 & _ & H). apply bind_ok in H as (z2 & _ & H).
  apply bind_ok in H as (z3 & _ & H). eapply axes_ok_mk; eauto. intros x Hx.
  apply alignment_In in Hx as (ax & [<-|[<-|[]]] & Hx); auto.
Qed.

Lemma along_axes b i s a vax e : along b i s = Ok a -> NoDup (ax_axes b) -> (forall x, In x (ax_axes b) -> x <> i -> axis_of vax e x) ->
  axes_ok vax e a.
Proof.
  unfold along. intros H ND HB. apply bind_ok in H as (rk & _ & H). apply bind_ok in H as (u & Hu & H).
  apply guard_ok in Hu. apply Nat.leb_le in Hu.
  destruct (index_of i (ax_axes b)) as [p|] eqn:Q.
  - apply index_of_Some in Q as [Q1 Q2].
    change (map _ (seq 0 _)) with (close_axes (ax_axes b) rk p) in H. eapply axes_ok_mk; eauto. intros x Hx.
    apply close_axes_In in Hx as [K1 K2]; auto. apply HB; auto. congruence.
  - apply index_of_None in Q. eapply axes_ok_mk; eauto. intros x Hx. apply HB; auto. intros ->. auto.
Qed.

Lemma reduction_elem body acc elem r : match_reduction_by_body body acc = Some (elem, r) ->
  exists a b, body = PBin (rop_bop r) a b /\ ((is_store acc a = true /\ elem = b) \/ (is_store acc b = true /\ elem = a)).
Proof.
  unfold match_reduction_by_body. destruct body; try discriminate.
  destruct o; try discriminate; (destruct (is_store acc body1) eqn:A; [|destruct (is_store acc body2) eqn:B; [|discriminate]]);
    intros H; injection H as <- <-; do 2 eexists; (split; [reflexivity|auto]).
Qed.

Lemma map_fst_combine {A B} (l : list A) (m : list B) : length l = length m -> map fst (combine l m) = l.
Proof. revert m. induction l as [|x l IH]; intros [|y m] H; try discriminate; auto. simpl. f_equal. apply IH. injection H; auto. Qed.
Lemma map_snd_combine {A B} (l : list A) (m : list B) : length l = length m -> map snd (combine l m) = m.
Proof. revert m. induction l as [|x l IH]; intros [|y m] H; try discriminate; auto. simpl. f_equal. apply IH. injection H; auto. Qed.

(** What [go_product] and [go_products] give. *)
Lemma go_product_inv rec idxs ct re sa args a : go_product fl orc rec idxs ct re sa args = Ok (Some a) ->
  let args' := map (fun e => substitute e (map (fun p => (SV (fst p), p_at (snd p))) re)) args in
  exists ts ops s, mapM typ args' = Ok ts /\ mapM (rec (sa ++ idxs)) args' = Ok ops /\
    (strict fl = true -> forall p, In p re -> (exists e, In e args /\ In (SV (fst p)) (fsyms e)) -> In (snd p) (concat (map ax_axes ops))) /\
    (strict fl = true -> forall p e, In p re -> In e args -> ~ In (SV (fst p)) (bsyms e)) /\
    let res_axes := filter (fun x => negb (mem x (map fst sa))) (alignment (map ax_axes ops)) in
    to_einsum_subs (map ax_axes ops) res_axes = Ok s /\
    mk_axial res_axes (YEinsum s (map ax_expr ops)) = Ok a.
Proof.
  intros H args'. unfold go_product in H. destruct (negb _); [discriminate|]. fold args' in H.
  apply bind_ok in H as (ts & Ht & H). apply bind_ok in H as (ops & Ho & H). apply bind_ok in H as (u & K & H).
  apply bind_ok in H as (u' & K' & H).
  apply bind_ok in H as (s & Hs & H). apply bind_ok in H as (a' & Ha & H). injection H as <-.
  exists ts, ops, s. split; auto. split; auto. split; [|split; [|auto]].
  2:{ intros S p e Hp He Hb. apply guard_ok in K'. rewrite S in K'. cbn [negb orb] in K'. rewrite forallb_forall in K'.
      specialize (K' p Hp). rewrite forallb_forall in K'. specialize (K' e He). apply negb_true_iff in K'.
      apply smem_In in Hb. congruence. }
  intros S p Hp (e & He & Hc). apply guard_ok in K. rewrite S in K.
  cbn [negb orb] in K. rewrite forallb_forall in K. specialize (K p Hp). apply orb_prop in K as [K|K]; [|apply mem_In; auto].
  apply negb_true_iff in K. apply not_true_iff_false in K. exfalso. apply K. apply existsb_exists. exists e. split; auto.
  apply smem_In; auto.
Qed.
Lemma go_products_inv f l ops : go_products f l = Ok (Some ops) -> Forall2 (fun p a => f p = Ok (Some a)) l ops.
Proof.
  revert ops. induction l as [|p l IH]; intros ops H; cbn [go_products] in H.
  - injection H as <-. constructor.
  - apply bind_ok in H as ([a|] & Ha & H); [|discriminate]. apply bind_ok in H as ([r|] & Hr & H); [|discriminate].
    cbn [option_map] in H. injection H as <-. constructor; auto.
Qed.

Theorem go_axes fuel : forall idxs vax e a, go fl orc fuel idxs vax e = Ok a -> axes_ok vax e a.
Proof.
  induction fuel as [|fuel IH]; intros idxs vax e a H; [discriminate|].
  assert (SUB : forall idxs vax e0 a0, go fl orc fuel idxs vax e0 = Ok a0 -> incl (fsyms e0) (fsyms e) ->
     forall x, In x (ax_axes a0) -> axis_of vax e x).
  { intros idxs0 vax0 e0 a0 H0 HI x Hx. eapply axis_of_sub; [exact HI|]. eapply (proj2 (IH _ _ _ _ H0)); auto. }
  destruct e; cbn [go] in H.
  - eapply axes_ok_mk; eauto. intros ? [].
  - destruct s as [x|i].
    + apply bind_ok in H as (p & _ & H). eapply axes_ok_mk; eauto. intros y Hy. right. eauto.
    + apply bind_ok in H as (p & _ & H). eapply axes_ok_mk; eauto. intros y [<-|[]]. left. simpl. auto.
  - (* Let *)
    apply bind_ok in H as (b & Hb & H). apply bind_ok in H as (q & Hq & H). unfold within in H.
    assert (B1 : forall z, In z (ax_axes b) -> axis_of vax (PLet x e1 e2) z).
    { intros z Hz. destruct (proj2 (IH _ _ _ _ Hb) z Hz) as [K|K]; [left|right; auto]. simpl. apply sremove_In.
      split; [apply in_or_app; auto|]. intros [Q|[]]. discriminate. }
    eapply axes_ok_mk; eauto. intros y Hy. destruct (proj2 (IH _ _ _ _ Hq) y Hy) as [K|K].
    + left. simpl. apply sremove_In. split; [apply in_or_app; auto|]. intros [Q|[]]. discriminate.
    + eapply axis_bind; eauto.
  - (* AssertEq *)
    destruct (IH _ _ _ _ H) as [K1 K2]. split; auto. intros x Hx. eapply axis_of_sub; [|apply K2; auto].
    simpl. apply incl_appl, incl_refl.
  - apply bind_ok in H as (b & Hb & H). apply bind_ok in H as (p & _ & H). eapply axes_ok_mk; eauto. intros ? [].
  - (* Get *)
    unfold transform_get in H. apply bind_ok in H as (t & Ht & H). apply bind_ok in H as (rk & _ & H).
    assert (B1 : forall x, In x (ax_axes t) -> axis_of vax (PGet e1 e2) x).
    { eapply SUB; eauto. simpl. apply incl_appl, incl_refl. }
    assert (OTH : others fl (go fl orc fuel idxs vax) t rk e2 = Ok a -> axes_ok vax (PGet e1 e2) a).
    { unfold others. intros K. apply bind_ok in K as (i & Hi & K).
      assert (B2 : forall x, In x (ax_axes i) -> axis_of vax (PGet e1 e2) x).
      { eapply SUB; eauto. simpl. apply incl_appr, incl_refl. }
      destruct (_ && _).
      - apply bind_ok in K as (p & _ & K). eapply axes_ok_mk; eauto. intros x Hx. apply in_app_or in Hx as [Hx|Hx]; auto.
      - eapply general_get_axes; eauto. }
    change (let* item := go fl orc fuel idxs vax e2 in _) with (others fl (go fl orc fuel idxs vax) t rk e2) in H.
    destruct (use_slice_pads fl); [|auto].
    destruct (match_index_clipped_shift e2) as [[ix [[sh lo] hi]]|] eqn:M; [|auto].
    destruct (smem _ _); [auto|].
    assert (B2 : forall x, In x (ax_axes t ++ [ix]) -> axis_of vax (PGet e1 e2) x).
    { intros x Hx. apply in_app_or in Hx as [Hx|[<-|[]]]; auto. left. simpl. apply in_or_app. right.
      unfold match_index_clipped_shift in M. destruct (the_index (free_indices e2)) as [j|] eqn:Q; [|discriminate].
      destruct (match_clipped_shift e2 (SX j)); [|discriminate]. injection M as -> _.
      apply the_index_In in Q. unfold free_indices in Q. apply filter_In in Q. apply Q. }
    destruct (_ && _).
    + eapply axes_ok_mk; eauto.
    + peel H. eapply axes_ok_mk; eauto.
  - (* Cons *)
    apply bind_ok in H as (x & Hx & H). apply bind_ok in H as (y & Hy & H). apply bind_ok in H as (u & _ & H).
    unfold cons_axial in H. peel H.
    eapply axes_ok_mk; eauto. intros z Hz. apply alignment_In in Hz as (ax & [<-|[<-|[]]] & Hz).
    + eapply SUB; [exact Hx| |auto]. simpl. apply incl_appl, incl_refl.
    + eapply SUB; [exact Hy| |auto]. simpl. apply incl_appr, incl_refl.
  - (* First *)
    apply bind_ok in H as (ty & _ & H). destruct ty; try discriminate. apply bind_ok in H as (p & _ & H).
    apply bind_ok in H as (x & Hx & H). unfold slice_tuple in H. peel H.
    eapply axes_ok_mk; eauto. eapply SUB; eauto. simpl. apply incl_refl.
  - apply bind_ok in H as (ty & _ & H). destruct ty; try discriminate. apply bind_ok in H as (p & _ & H).
    apply bind_ok in H as (q & _ & H).
    apply bind_ok in H as (x & Hx & H). unfold slice_tuple in H. peel H.
    eapply axes_ok_mk; eauto. eapply SUB; eauto. simpl. apply incl_refl.
  - (* Vec *)
    apply bind_ok in H as (s & _ & H). apply bind_ok in H as (s' & _ & H). apply bind_ok in H as (b & Hb & H).
    destruct (IH _ _ _ _ Hb) as [K1 K2]. eapply along_axes; eauto. intros x Hx NX.
    destruct (K2 x Hx) as [K|K]; [left|right; auto]. simpl. apply sremove_In. split; [apply in_or_app; auto|].
    intros [Q|[]]. congruence.
  - (* Fold *)
    apply bind_ok in H as (ein & HE & H). destruct ein as [ae|].
    { injection H as <-. destruct (use_einsum fl); [|discriminate]. unfold einsum_fold in HE.
      apply bind_ok in HE as (d & L & HE). destruct (_ || _); [discriminate|]. apply bind_ok in HE as (sizes & HSZ & HE). apply mapM_length in HSZ.
      apply bind_ok in HE as ([ops|] & Hops & HE); [|discriminate]. apply bind_ok in HE as (u & _ & HE).
      apply bind_ok in HE as (ys & _ & HE). destruct ys as [|y ys]; [discriminate|]. apply bind_ok in HE as (ar & Ha & HE).
      injection HE as <-.
      destruct (lifts_within false _ _ (lift_lifts false _ _ _ (le_n _) L ltac:(discriminate))) as [LW _].
      apply go_products_inv in Hops. eapply axes_ok_mk; eauto. intros x Hx. apply alignment_In in Hx as (ax & Hax & Hx).
      apply in_map_iff in Hax as (op & <- & Hop).
      assert (exists p, In p (products d) /\ go_product fl orc (fun is_ t => go fl orc fuel is_ vax t) idxs (contract d)
         (combine (map fst (contract d)) (seq (fresh_index idxs vax (PFold c e1 acc e2 e3)) (length (contract d))))
         (combine (seq (fresh_index idxs vax (PFold c e1 acc e2 e3)) (length (contract d))) sizes) p = Ok (Some op)) as (p & Hp & Hgo).
      { clear - Hops Hop. induction Hops; [destruct Hop|]; destruct Hop as [<-|Hop]; [eexists; split; [left; reflexivity|auto]|].
        destruct (IHHops Hop) as (o & ? & ?). exists o. split; auto. right; auto. }
      apply go_product_inv in Hgo as (ts & os & s & _ & Hos & _ & _ & _ & Hm). apply mk_axial_inv in Hm as (-> & _).
      cbn [ax_axes] in Hx. apply filter_In in Hx as [Hx NX]. apply alignment_In in Hx as (ax & Hax & Hx).
      apply in_map_iff in Hax as (o & <- & Ho). apply mapM_Forall2 in Hos.
      match type of Hos with Forall2 _ ?l _ => assert (exists t, In t l /\ exists is_, go fl orc fuel is_ vax t = Ok o) as (t & Ht & is_ & Hgt) end.
      { clear - Hos Ho. induction Hos; [destruct Ho|]; destruct Ho as [<-|Ho]; [eexists; split; [left; reflexivity|eauto]|].
        destruct (IHHos Ho) as (o' & ? & ?). exists o'. split; auto. right; auto. }
      destruct (proj2 (IH _ _ _ _ Hgt) x Hx) as [K|K]; [|right; auto]. left.
      apply in_map_iff in Ht as (a0 & <- & Ha0). apply substitute_fsyms in K as [K|(u0 & Hu & K)]; [eapply LW; eauto|].
      exfalso. apply in_map_iff in Hu as ([s0 u1] & <- & Hu). apply in_map_iff in Hu as ([c0 i0] & Hu & Hin). simpl in Hu.
      injection Hu as <- <-. simpl in K. destruct K as [K|[]]. injection K as ->.
      apply negb_true_iff, not_true_iff_false in NX. apply NX. apply mem_In. apply in_combine_r in Hin.
      rewrite map_fst_combine by (rewrite seq_length; auto). auto. }
    apply bind_ok in H as (red & HR & H). destruct red as [ar|].
    { injection H as <-. destruct (use_reductions fl); [|discriminate]. unfold match_reduction in HR.
      apply bind_ok in HR as (ti & _ & HR). destruct (_ || _); [discriminate|].
      destruct (match_reduction_by_body e3 acc) as [[elem r]|] eqn:M; [|discriminate]. destruct (negb _); [discriminate|].
      apply bind_ok in HR as (u1 & _ & HR). apply bind_ok in HR as (u2 & _ & HR). apply bind_ok in HR as (v & Hv & HR).
      apply bind_ok in HR as (p & _ & HR). apply bind_ok in HR as (i & _ & HR). apply bind_ok in HR as (i' & _ & HR).
      apply bind_ok in HR as (a' & Ha & HR). injection HR as <-. destruct (IH _ _ _ _ Hv) as [K1 K2].
      eapply axes_ok_mk; eauto. intros x Hx. destruct (K2 x Hx) as [K|K]; [left|right; auto].
      simpl in K. apply sremove_In in K as [K NK]. apply in_app_or in K.
      simpl. apply sremove_In. split; [|intros [Q|[Q|[]]]; discriminate]. rewrite !in_app_iff.
      destruct K as [K|K]; [auto|]. apply substitute_fsyms in K as [K|(u0 & [<-|[]] & K)].
      - right. right. apply reduction_elem in M as (b1 & b2 & -> & [(_ & ->)|(_ & ->)]); simpl; apply in_or_app; auto.
      - exfalso. apply NK. left. simpl in K. destruct K as [K|[]]; auto. }
    apply bind_ok in H as (s & _ & H). apply bind_ok in H as (s' & _ & H). apply bind_ok in H as (i & Hi & H).
    apply bind_ok in H as (b0 & Hb0 & H). apply bind_ok in H as (b & Hb & H). apply bind_ok in H as (u & _ & H).
    apply bind_ok in H as (yi & _ & H). apply bind_ok in H as (yb & _ & H).
    set (e := PFold c e1 acc e2 e3) in *.
    assert (P : forall x, In (SX x) (fsyms e1 ++ fsyms e2 ++ fsyms e3) -> In (SX x) (fsyms e)).
    { intros x Hx. unfold e. simpl. apply sremove_In. split; auto. intros [Q|[Q|[]]]; discriminate. }
    assert (B1 : forall z, In z (ax_axes i) -> axis_of vax e z).
    { intros z Hz. destruct (proj2 (IH _ _ _ _ Hi) z Hz) as [K|K]; [left|right; auto]. apply P. rewrite !in_app_iff. auto. }
    eapply axes_ok_mk; eauto. intros y Hy. destruct (proj2 (IH _ _ _ _ Hb0) y Hy) as [K|K].
    + left. apply P. rewrite !in_app_iff. auto.
    + eapply axis_bind; eauto.
  - (* Reduce *)
    apply bind_ok in H as (i & Hi & H). apply bind_ok in H as (vs & Hvs & H). apply bind_ok in H as (b0 & Hb0 & H).
    peel H.
    set (e := PReduce e1 x y e2 vecs) in *.
    assert (P : forall x, In (SX x) (fsyms e1 ++ flat_map fsyms vecs ++ fsyms e2) -> In (SX x) (fsyms e)).
    { intros z Hz. unfold e. simpl. apply sremove_In. split; auto. intros [Q|[Q|[]]]; discriminate. }
    assert (B1 : forall z, In z (alignment (ax_axes i :: map ax_axes vs)) -> axis_of vax e z).
    { intros z Hz. apply alignment_In in Hz as (ax & [<-|Hax] & Hz).
      - destruct (proj2 (IH _ _ _ _ Hi) z Hz) as [K|K]; [left|right; auto]. apply P. rewrite !in_app_iff. auto.
      - apply in_map_iff in Hax as (v & <- & Hv). apply mapM_Forall2 in Hvs.
        assert (exists o, In o vecs /\ go fl orc fuel idxs vax o = Ok v) as (o & Ho & Hgo).
        { clear - Hvs Hv. induction Hvs; [destruct Hv|]; destruct Hv as [<-|Hv]; [eexists; split; [left; reflexivity|auto]|].
          destruct (IHHvs Hv) as (o & ? & ?). exists o. split; auto. right; auto. }
        destruct (proj2 (IH _ _ _ _ Hgo) z Hz) as [K|K]; [left|right; auto]. apply P. rewrite !in_app_iff. right. left.
        apply in_flat_map. eauto. }
    eapply axes_ok_mk; eauto. intros z Hz. destruct (proj2 (IH _ _ _ _ Hb0) z Hz) as [K|K].
    + left. apply P. rewrite !in_app_iff. auto.
    + destruct K as (w & K). rewrite !axes_of_cons in K. destruct (x =? w); auto. destruct (y =? w); auto. right. eauto.
  - (* unary *)
    assert (S1 : incl (fsyms e) (fsyms (PUn o e))) by apply incl_refl.
    assert (K : (exists x, go fl orc fuel idxs vax e = Ok x /\ exists y, mk_axial (ax_axes x) y = Ok a) \/
                exists x y, go fl orc fuel idxs vax e = Ok x /\ mk_axial (alignment [ax_axes x]) y = Ok a).
    { destruct o; try (right; apply bind_ok in H as (x & Hx & H); apply bind_ok in H as (x' & _ & H); eauto; fail).
      left. apply bind_ok in H as (x & Hx & H). eauto. }
    destruct K as [(x & Hx & y & K)|(x & y & Hx & K)]; eapply axes_ok_mk; eauto.
    intros z Hz. apply alignment_In in Hz as (ax & [<-|[]] & Hz). eapply SUB; eauto.
  - apply bind_ok in H as (x & Hx & H). apply bind_ok in H as (y & Hy & H).
    peel H.
    eapply axes_ok_mk; eauto. intros z Hz. apply alignment_In in Hz as (ax & [<-|[<-|[]]] & Hz).
    + eapply SUB; [exact Hx| |auto]. simpl. apply incl_appl, incl_refl.
    + eapply SUB; [exact Hy| |auto]. simpl. apply incl_appr, incl_refl.
  - apply bind_ok in H as (z0 & Hz0 & H). apply bind_ok in H as (x & Hx & H). apply bind_ok in H as (y & Hy & H).
    peel H.
    eapply axes_ok_mk; eauto. intros z Hz. apply alignment_In in Hz as (ax & [<-|[<-|[<-|[]]]] & Hz).
    + eapply SUB; [exact Hz0| |auto]. simpl. apply incl_appl, incl_refl.
    + eapply SUB; [exact Hx| |auto]. simpl. apply incl_appr, incl_appl, incl_refl.
    + eapply SUB; [exact Hy| |auto]. simpl. apply incl_appr, incl_appr, incl_refl.
  - apply bind_ok in H as (x & Hx & H). apply bind_ok in H as (y & Hy & H).
    peel H.
    eapply axes_ok_mk; eauto. intros z Hz. apply alignment_In in Hz as (ax & [<-|[<-|[]]] & Hz).
    + eapply SUB; [exact Hx| |auto]. simpl. apply incl_appl, incl_refl.
    + eapply SUB; [exact Hy| |auto]. simpl. apply incl_appr, incl_refl.
  - apply bind_ok in H as (xs & Hxs & H). peel H.
    eapply axes_ok_mk; eauto. intros z Hz. apply alignment_In in Hz as (ax & Hax & Hz).
    apply in_map_iff in Hax as (v & <- & Hv). apply mapM_Forall2 in Hxs.
    assert (exists o, In o ops /\ go fl orc fuel idxs vax o = Ok v) as (o & Ho & Hgo).
    { clear - Hxs Hv. induction Hxs; [destruct Hv|]; destruct Hv as [<-|Hv]; [eexists; split; [left; reflexivity|auto]|].
      destruct (IHHxs Hv) as (o & ? & ?). exists o. split; auto. right; auto. }
    eapply SUB; eauto. simpl. intros q Hq. apply in_flat_map. eauto.
Qed.
End Axes.
