(** The translation of each kind of term, given the translation of its
    subterms (phi_to_yarr.py:41-292). *)
From Verif Require Import Base Scalar Tensor Types Sym Phi Den Term PhiTerm DenFree SpecPhi Lining TypesFacts Typing DenWf Naive
  Sizes ClipShift NdOps NdFacts Yarr Axial AxialFacts AxialOps Codegen IndexOps YOps CodegenSafe CodegenGet CodegenCtx.

Section Cases.
Context {FO : FloatOps} {EX : Externs} {PO : PadOps}.
Variable fl : flags.
Variable orc : oracle.
Variable padk : kind -> bool.
Variable pade : bool.
Variables (N : nat -> nat) (I X : list nat) (r : yenv) (idxs : idx_sizes) (vax : var_axes) (E : asg -> env) (G : tctx).
Hypothesis C : ctx N I X r idxs vax E G.
Notation good := (good fl orc padk pade G N I X E).
Notation result_ok := (result_ok N I X r E).

Lemma sizes_ctx : sizes_ok N I X r idxs.
Proof.
  intros i n Hi Hn. destruct (G (SX i)) eqn:Q.
  - destruct (c_idx _ _ _ _ _ _ _ _ C i Hi) as (y & A & B); congruence.
  - destruct (c_batch _ _ _ _ _ _ _ _ C i Hi Q). congruence.
Qed.
Lemma covers_has a axes i : covers idxs axes a = true -> In i axes -> mem i (ax_axes a) || has idxs i = true.
Proof. unfold covers. intros H Hi. rewrite forallb_forall in H. exact (H i Hi). Qed.

Lemma dval_loc e s s' : (forall i, In i I -> s i = s' i) -> dval (E s) e = dval (E s') e.
Proof. intros H. rewrite (c_loc _ _ _ _ _ _ _ _ C s s' H). auto. Qed.

(** 47-48 *)
Lemma case_const a ax : mk_axial [] (YConst a) = Ok ax -> good (PConst a) -> result_ok (PConst a) ax.
Proof.
  intros H Hg. apply mk_axial_inv in H as (-> & ND & _). exists [a]. cbn [ax_axes ax_expr]. split; [apply yok_const|].
  split; auto. split; [intros ? []|]. pose proof (g_sc _ _ _ _ _ _ _ _ _ _ Hg) as W. simpl in W.
  destruct (rep_const N I a W) as (_ & _ & rest & k & F). eapply vfrep_one with (A := fun _ => a); eauto.
Qed.

(** 49-53 *)
Lemma case_index i t ax : (let* s := of_opt EUnbound (assoc i idxs) in mk_axial [i] (YRange s)) = Ok ax ->
  good (PStore (SX i) t) -> result_ok (PStore (SX i) t) ax.
Proof.
  intros H Hg. apply bind_ok in H as (y & Hy & H). apply mk_axial_inv in H as (-> & ND & _).
  pose proof (g_sc _ _ _ _ _ _ _ _ _ _ Hg) as S. simpl in S.
  assert (Hi : In i I).
  { apply (in_scope_x X). apply (c_dom _ _ _ _ _ _ _ _ C). congruence. }
  destruct (c_idx _ _ _ _ _ _ _ _ C i Hi) as (y' & A & B); [congruence|]. rewrite A in Hy. injection Hy as <-.
  exists [nd_range (Z.of_nat (N i))]. cbn [ax_axes ax_expr]. split; [apply yok_range; auto|].
  split; auto. split; [intros ? [<-|[]]; auto|].
  eapply vfrep_one; [|apply range_ok; auto]. intros s Hs. unfold dval. cbn [den].
  rewrite (c_at _ _ _ _ _ _ _ _ C s i Hs Hi) by congruence. reflexivity.
Qed.

(** 54-61 *)
Lemma case_var x t ax :
  (let* p := primitive_type t in mk_axial (axes_of vax x) (YVar x (rank_up (length (axes_of vax x)) p))) = Ok ax ->
  good (PStore (SV x) t) -> result_ok (PStore (SV x) t) ax.
Proof.
  intros H Hg. apply bind_ok in H as (p & Hp & H). apply mk_axial_inv in H as (-> & ND & _).
  pose proof (g_sc _ _ _ _ _ _ _ _ _ _ Hg) as S. simpl in S.
  assert (Hx : In x X).
  { apply (in_scope_v X I). apply (c_dom _ _ _ _ _ _ _ _ C). congruence. }
  destruct (c_var _ _ _ _ _ _ _ _ C x Hx) as (l & V & A & B & D).
  exists l. cbn [ax_axes ax_expr]. split.
  - split.
    + intros r' Hr. cbn [yeval]. rewrite <- (Hr x Hx), A. reflexivity.
    + cbn [ytyp]. f_equal. rewrite (vrep_types _ _ _ _ _ _ D (wv_zero N I)). f_equal.
      apply primitive_leaves in Hp. subst p. symmetry. apply has_type_leaves.
      apply (c_typ _ _ _ _ _ _ _ _ C _ (wv_zero N I) (SV x)); auto. apply B. apply wv_zero.
  - eapply vrep_ext; [|exact D]. intros s Hs. unfold dval. cbn [den]. rewrite (B s Hs). reflexivity.
Qed.

(** 73-78 *)
Lemma case_dim t k a ax : (let* p := positional_axis a k in mk_axial [] (YDim p (ax_expr a))) = Ok ax ->
  good (PDim t k) -> result_ok t a -> result_ok (PDim t k) ax.
Proof.
  intros H Hg (l & Y & ND & IN & VF). apply bind_ok in H as (p & Hp & H). apply mk_axial_inv in H as (-> & ND' & _).
  unfold positional_axis in Hp. apply bind_ok in Hp as (rk & Hrk & Hp). apply bind_ok in Hp as (u & Hu & Hp).
  injection Hp as <-. destruct (rank_rep _ _ _ _ _ Hrk Y) as (b & -> & ->).
  destruct (vfrep_one_inv _ _ _ _ _ _ VF) as (rest & kd & F & HV).
  assert (Gt := good_dimterm _ _ _ _ _ _ _ _ _ _ _ Hg).
  assert (D : forall s, wv N I s -> exists d, nth_error rest k = Some d /\ dval (E s) (PDim t k) = vnat d).
  { intros s Hs. pose proof (good_den _ _ _ _ _ _ _ _ _ _ _ Hg Hs) as Q. cbn [den] in Q.
    rewrite (good_den _ _ _ _ _ _ _ _ _ _ _ Gt Hs) in Q. cbn [bind] in Q. rewrite HV in Q by auto. cbn [vdim] in Q.
    destruct (fr_mem _ _ _ _ _ _ _ _ F s Hs) as (_ & _ & S). rewrite S in Q.
    destruct (nth_error rest k) as [d|]; [|discriminate]. cbn in Q. injection Q as Q. exists d. split; auto. }
  destruct (D _ (wv_zero N I)) as (d & D1 & _).
  exists [ascalar (SI (Z.of_nat d))]. cbn [ax_axes ax_expr]. split.
  - eapply yok_dim; eauto. rewrite (fr_shape _ _ _ _ _ _ _ _ F). rewrite nth_error_app2; rewrite map_length; [|lia].
    replace (length (ax_axes a) + k - length (ax_axes a)) with k by lia. auto.
  - split; auto. split; [intros ? []|].
    destruct (rep_const N I (ascalar (SI (Z.of_nat d))) (ascalar_wf _)) as (_ & _ & rest' & k' & F').
    eapply vfrep_one with (A := fun _ => ascalar (SI (Z.of_nat d))); eauto.
    intros s Hs. destruct (D s Hs) as (d' & D1' & ->). rewrite D1 in D1'. injection D1' as <-. reflexivity.
Qed.

(** scalars *)
Definition sof (v : val) : scalar := match val_scalar v with Ok s => s | Err _ => SI 0 end.

Lemma good_sof e k s : good e -> typ e = Ok (TScalar k) -> wv N I s ->
  dval (E s) e = VArr (ascalar (sof (dval (E s) e))) /\ skind (sof (dval (E s) e)) = k.
Proof.
  intros Hg Ht Hs. destruct (typed_scalar _ _ (good_typed _ _ _ _ _ _ _ _ _ _ _ _ C e _ s Hg Ht Hs)) as (z & Q & K).
  rewrite Q. unfold sof, val_scalar. cbn [as_arr bind]. rewrite as_scalar_ascalar. auto.
Qed.

Lemma result_scalar e a k : result_ok e a -> good e -> typ e = Ok (TScalar k) ->
  exists b, yok X r (ax_expr a) [b] /\ NoDup (ax_axes a) /\ incl (ax_axes a) I /\
    frep N I all_axes (ax_axes a) [] k b (fun s => ascalar (sof (dval (E s) e))).
Proof.
  intros (l & Y & (ND & IN & L & HL)) Hg Ht.
  destruct (good_sof e k _ Hg Ht (wv_zero N I)) as [Q0 K0].
  pose proof (L _ (wv_zero N I)) as L0. rewrite Q0 in L0. cbn in L0. destruct l as [|b [|b' l]]; try discriminate.
  exists b. split; auto. split; auto. split; auto.
  destruct (HL 0 ltac:(simpl; lia)) as (rest & k' & F). simpl in F.
  assert (HA : forall s, wv N I s -> leaf (fun s => dval (E s) e) 0 s = ascalar (sof (dval (E s) e))).
  { intros s Hs. unfold leaf. destruct (good_sof e k s Hg Ht Hs) as [Q _]. rewrite Q at 1. reflexivity. }
  destruct (fr_mem _ _ _ _ _ _ _ _ F _ (wv_zero N I)) as (_ & K & S). rewrite HA in K, S by apply wv_zero.
  simpl in K, S. subst rest. rewrite K0 in K. subst k'. eapply frep_ext; [| |exact F]; auto.
Qed.

(** a scalar operand, aligned *)
Lemma aligned_scalar e a k used y' : result_ok e a -> good e -> typ e = Ok (TScalar k) ->
  aligned a used false [] = Ok y' -> NoDup used -> incl used I ->
  exists b, yok X r y' [b] /\
    operand_ok N I used [] (mkOperand (ax_axes a) k b (fun s => ascalar (sof (dval (E s) e)))).
Proof.
  intros R Hg Ht H NDu INu. destruct (result_scalar e a k R Hg Ht) as (b & Y & ND & IN & F).
  assert (V : vrep N I (ax_axes a) [b] (fun s => VArr (ascalar (sof (dval (E s) e))))).
  { split; auto. split; auto. eapply vfrep_one with (A := fun s => ascalar (sof (dval (E s) e))); eauto. }
  destruct (aligned_ok N I X r a used false [] y' _ _ H (sizes_ok_nil _ _ _ _) NDu INu Y V) as (l & Y1 & L1 & F1 & _).
  destruct l as [|b' [|? ?]]; try discriminate. exists b'. split; auto.
  specialize (F1 0 ltac:(simpl; lia) [] k). cbn [nth] in F1. unfold operand_ok. cbn [o_ax o_kind o_arr o_fam].
  eapply frep_ext; cycle 2.
  - apply F1. eapply frep_ext; [| |exact F]; auto.
  - cbv beta. intros; rewrite has_nil, orb_false_r; auto.
  - reflexivity.
Qed.

Lemma to_float_kind s : skind (to_float s) = KFloat.
Proof. destruct s; reflexivity. Qed.

(** 258-265 *)
Lemma case_cast a x ax : mk_axial (ax_axes x) (YCast KFloat (ax_expr x)) = Ok ax ->
  good (PUn UFloat a) -> result_ok a x -> result_ok (PUn UFloat a) ax.
Proof.
  intros H Hg R. apply mk_axial_inv in H as (-> & ND & _).
  assert (Ga := good_un _ _ _ _ _ _ _ _ _ _ _ Hg).
  destruct (g_typ _ _ _ _ _ _ _ _ _ _ Hg) as (t & T). cbn [typ] in T. apply bind_ok in T as (ta & Ta & T).
  apply resolve_un_inv in T as (k & k' & -> & -> & K).
  destruct (result_scalar a x k R Ga Ta) as (b & Y & _ & IN & F).
  exists [tab KFloat (ashape b) (fun idx => to_float (get b idx))]. cbn [ax_axes ax_expr].
  split; [apply yok_cast; auto|]. split; auto. split; auto.
  assert (D : forall s, wv N I s -> dval (E s) (PUn UFloat a) = VArr (ascalar (to_float (sof (dval (E s) a)))) /\
     exists f, to_float (sof (dval (E s) a)) = SF f).
  { intros s Hs. pose proof (good_den _ _ _ _ _ _ _ _ _ _ _ Hg Hs) as Q. cbn [den] in Q.
    rewrite (good_den _ _ _ _ _ _ _ _ _ _ _ Ga Hs) in Q. cbn [bind] in Q.
    destruct (good_sof a k s Ga Ta Hs) as [Q1 Q2]. rewrite Q1 in Q. unfold lift1, val_scalar in Q. cbn [as_arr bind] in Q.
    rewrite as_scalar_ascalar in Q. cbn [bind] in Q.
    destruct (sof (dval (E s) a)) eqn:Q3; cbn in Q; try discriminate; injection Q as Q; split; try (symmetry; exact Q); eexists; reflexivity. }
  eapply vfrep_one with (A := fun s => ascalar (to_float (sof (dval (E s) a)))); [intros s Hs; apply D; auto|].
  assert (FI := fun s p => frep_inb _ _ _ _ _ _ _ _ s p F).
  destruct F as [FW FK FS FM FG]. constructor.
  - apply tab_wf. intros idx Hi. apply to_float_kind.
  - reflexivity.
  - exact FS.
  - intros s Hs. split; [apply ascalar_wf|]. split; [|reflexivity]. simpl. apply to_float_kind.
  - intros s Hs Hb p Hp. pose proof (inb_length _ _ Hp) as Lp. destruct p; [|discriminate].
    rewrite get_tab by (apply FI; auto).
    rewrite (FG s Hs Hb [] Hp). reflexivity.
Qed.

Lemma used_iff (axs : list (list nat)) x : In x (alignment axs) <-> exists ax, In ax axs /\ In x ax.
Proof. apply alignment_In. Qed.

(** 266-273, one operand *)
Lemma case_un o a x ax :
  (let used := alignment [ax_axes x] in
   let* x' := aligned x used false [] in mk_axial used (YUn o x')) = Ok ax ->
  good (PUn o a) -> result_ok a x -> result_ok (PUn o a) ax.
Proof.
  intros H Hg R. cbv zeta in H. apply bind_ok in H as (x' & Hx & H). apply mk_axial_inv in H as (-> & ND & _).
  assert (Ga := good_un _ _ _ _ _ _ _ _ _ _ _ Hg).
  destruct (g_typ _ _ _ _ _ _ _ _ _ _ Hg) as (t & T). cbn [typ] in T. apply bind_ok in T as (ta & Ta & T).
  apply resolve_un_inv in T as (k & k' & -> & -> & K).
  set (used := alignment [ax_axes x]) in *.
  assert (INu : incl used I).
  { apply alignment_incl. intros ax [<-|[]]. destruct R as (? & _ & _ & IN & _). auto. }
  destruct (aligned_scalar a x k used x' R Ga Ta Hx ND INu) as (b & Yb & O).
  set (ops := [mkOperand (ax_axes x) k b (fun s => ascalar (sof (dval (E s) a)))]).
  assert (D : forall s, wv N I s -> sem_un o (sof (dval (E s) a)) = Some (sof (dval (E s) (PUn o a))) /\
      dval (E s) (PUn o a) = VArr (ascalar (sof (dval (E s) (PUn o a))))).
  { intros s Hs. pose proof (good_den _ _ _ _ _ _ _ _ _ _ _ Hg Hs) as Q. cbn [den] in Q.
    rewrite (good_den _ _ _ _ _ _ _ _ _ _ _ Ga Hs) in Q. cbn [bind] in Q.
    destruct (good_sof a k s Ga Ta Hs) as [Q1 Q2]. rewrite Q1 in Q at 1. unfold lift1, val_scalar in Q. cbn [as_arr bind] in Q.
    rewrite as_scalar_ascalar in Q. cbn [bind] in Q. apply bind_ok in Q as (w & Q3 & Q). injection Q as Q. rewrite <- Q.
    unfold sof at 2 3. unfold vscalar, val_scalar. cbn [as_arr bind]. rewrite as_scalar_ascalar.
    destruct (sem_un o _); [|discriminate]. injection Q3 as <-. auto. }
  destruct (ew_ok N I (kf1 (kind_un o)) (sf1 (sem_un o)) used ops k' (fun s => sof (dval (E s) (PUn o a))) ND INu) as (c & EW & LC & FC).
  - intros y. unfold used. rewrite used_iff. reflexivity.
  - constructor; [exact O|constructor].
  - simpl. exact K.
  - intros ss s. destruct ss as [|u [|? ?]]; simpl; try discriminate. intros Q. pose proof (sem_un_kind o u) as Q'. rewrite Q in Q'. symmetry. exact Q'.
  - intros s Hs. simpl. apply (D s Hs).
  - exists [c]. cbn [ax_axes ax_expr]. split; [eapply yok_un; eauto|].
    split; auto. split; auto. eapply vfrep_one; [|exact FC]. intros s Hs. apply D; auto.
Qed.

Lemma case_bin o a b x y ax :
  (let used := alignment [ax_axes x; ax_axes y] in
   let* x' := aligned x used false [] in
   let* y' := aligned y used false [] in mk_axial used (YBin o x' y' None)) = Ok ax ->
  good (PBin o a b) -> result_ok a x -> result_ok b y -> result_ok (PBin o a b) ax.
Proof.
  intros H Hg R R2. cbv zeta in H. apply bind_ok in H as (x' & Hx & H). apply bind_ok in H as (y' & Hy & H).
  apply mk_axial_inv in H as (-> & ND & _).
  destruct (good_bin _ _ _ _ _ _ _ _ _ _ _ _ Hg) as [Ga Gb].
  destruct (g_typ _ _ _ _ _ _ _ _ _ _ Hg) as (t & T). cbn [typ] in T. apply bind_ok in T as (ta & Ta & T).
  apply bind_ok in T as (tb & Tb & T).
  apply resolve_bin_inv in T as (k1 & k2 & k' & -> & -> & -> & K).
  set (used := alignment [ax_axes x; ax_axes y]) in *.
  assert (INu : incl used I).
  { apply alignment_incl. intros ax [<-|[<-|[]]]; [destruct R as (? & _ & _ & IN & _)|destruct R2 as (? & _ & _ & IN & _)]; auto. }
  destruct (aligned_scalar a x k1 used x' R Ga Ta Hx ND INu) as (b1 & Y1 & O1).
  destruct (aligned_scalar b y k2 used y' R2 Gb Tb Hy ND INu) as (b2 & Y2 & O2).
  set (ops := [mkOperand (ax_axes x) k1 b1 (fun s => ascalar (sof (dval (E s) a)));
               mkOperand (ax_axes y) k2 b2 (fun s => ascalar (sof (dval (E s) b)))]).
  set (e := PBin o a b) in *.
  assert (D : forall s, wv N I s -> sem_bin o (sof (dval (E s) a)) (sof (dval (E s) b)) = Some (sof (dval (E s) e)) /\
      dval (E s) e = VArr (ascalar (sof (dval (E s) e)))).
  { intros s Hs. pose proof (good_den _ _ _ _ _ _ _ _ _ _ _ Hg Hs) as Q. unfold e at 1 in Q. cbn [den] in Q.
    rewrite (good_den _ _ _ _ _ _ _ _ _ _ _ Ga Hs), (good_den _ _ _ _ _ _ _ _ _ _ _ Gb Hs) in Q. cbn [bind] in Q.
    destruct (good_sof a k1 s Ga Ta Hs) as [Q1 _]. destruct (good_sof b k2 s Gb Tb Hs) as [Q2 _].
    rewrite Q1, Q2 in Q at 1. unfold lift2, val_scalar in Q. cbn [as_arr bind] in Q.
    rewrite !as_scalar_ascalar in Q. cbn [bind] in Q. apply bind_ok in Q as (w & Q3 & Q). injection Q as Q. rewrite <- Q.
    unfold sof at 3 4. unfold vscalar, val_scalar. cbn [as_arr bind]. rewrite as_scalar_ascalar.
    destruct (sem_bin o _ _); [|discriminate]. injection Q3 as <-. auto. }
  destruct (ew_ok N I (kf2 (kind_bin o)) (sf2 (sem_bin o)) used ops k' (fun s => sof (dval (E s) e)) ND INu) as (c & EW & LC & FC).
  - intros z. unfold used. rewrite used_iff. reflexivity.
  - constructor; [exact O1|constructor; [exact O2|constructor]].
  - simpl. exact K.
  - intros ss s. destruct ss as [|u [|v [|? ?]]]; simpl; try discriminate. intros Q. pose proof (sem_bin_kind o u v) as Q'. rewrite Q in Q'. symmetry. exact Q'.
  - intros s Hs. simpl. apply (D s Hs).
  - exists [c]. cbn [ax_axes ax_expr]. split; [eapply yok_bin; eauto|].
    split; auto. split; auto. eapply vfrep_one; [|exact FC]. intros s Hs. apply D; auto.
Qed.

Lemma case_where c0 a b z x y ax :
  (let used := alignment [ax_axes z; ax_axes x; ax_axes y] in
   let* z' := aligned z used false [] in
   let* x' := aligned x used false [] in
   let* y' := aligned y used false [] in mk_axial used (YWhere z' x' y')) = Ok ax ->
  good (PWhere c0 a b) -> result_ok c0 z -> result_ok a x -> result_ok b y -> result_ok (PWhere c0 a b) ax.
Proof.
  intros H Hg R0 R R2. cbv zeta in H. apply bind_ok in H as (z' & Hz & H). apply bind_ok in H as (x' & Hx & H).
  apply bind_ok in H as (y' & Hy & H). apply mk_axial_inv in H as (-> & ND & _).
  destruct (good_where _ _ _ _ _ _ _ _ _ _ _ _ Hg) as (Gc & Ga & Gb).
  destruct (g_typ _ _ _ _ _ _ _ _ _ _ Hg) as (t & T). cbn [typ] in T. apply bind_ok in T as (tc & Tc & T).
  apply bind_ok in T as (ta & Ta & T). apply bind_ok in T as (tb & Tb & T).
  apply resolve_where_inv in T as (k0 & k1 & k2 & k' & -> & -> & -> & -> & K).
  set (used := alignment [ax_axes z; ax_axes x; ax_axes y]) in *.
  assert (INu : incl used I).
  { apply alignment_incl. intros ax [<-|[<-|[<-|[]]]];
     [destruct R0 as (? & _ & _ & IN & _)|destruct R as (? & _ & _ & IN & _)|destruct R2 as (? & _ & _ & IN & _)]; auto. }
  destruct (aligned_scalar c0 z k0 used z' R0 Gc Tc Hz ND INu) as (b0 & Y0 & O0).
  destruct (aligned_scalar a x k1 used x' R Ga Ta Hx ND INu) as (b1 & Y1 & O1).
  destruct (aligned_scalar b y k2 used y' R2 Gb Tb Hy ND INu) as (b2 & Y2 & O2).
  set (ops := [mkOperand (ax_axes z) k0 b0 (fun s => ascalar (sof (dval (E s) c0)));
               mkOperand (ax_axes x) k1 b1 (fun s => ascalar (sof (dval (E s) a)));
               mkOperand (ax_axes y) k2 b2 (fun s => ascalar (sof (dval (E s) b)))]).
  set (e := PWhere c0 a b) in *.
  assert (D : forall s, wv N I s -> sem_where (sof (dval (E s) c0)) (sof (dval (E s) a)) (sof (dval (E s) b)) = Some (sof (dval (E s) e)) /\
      dval (E s) e = VArr (ascalar (sof (dval (E s) e)))).
  { intros s Hs. pose proof (good_den _ _ _ _ _ _ _ _ _ _ _ Hg Hs) as Q. unfold e at 1 in Q. cbn [den] in Q.
    rewrite (good_den _ _ _ _ _ _ _ _ _ _ _ Gc Hs), (good_den _ _ _ _ _ _ _ _ _ _ _ Ga Hs), (good_den _ _ _ _ _ _ _ _ _ _ _ Gb Hs) in Q. cbn [bind] in Q.
    destruct (good_sof c0 k0 s Gc Tc Hs) as [Q0 _].
    destruct (good_sof a k1 s Ga Ta Hs) as [Q1 _]. destruct (good_sof b k2 s Gb Tb Hs) as [Q2 _].
    rewrite Q0, Q1, Q2 in Q at 1. unfold lift3, val_scalar in Q. cbn [as_arr bind] in Q.
    rewrite !as_scalar_ascalar in Q. cbn [bind] in Q. apply bind_ok in Q as (w & Q3 & Q). injection Q as Q. rewrite <- Q.
    unfold sof at 4 5. unfold vscalar, val_scalar. cbn [as_arr bind]. rewrite as_scalar_ascalar.
    destruct (sem_where _ _ _); [|discriminate]. injection Q3 as <-. auto. }
  destruct (ew_ok N I (kf3 kind_where) (sf3 sem_where) used ops k' (fun s => sof (dval (E s) e)) ND INu) as (c & EW & LC & FC).
  - intros w. unfold used. rewrite used_iff. reflexivity.
  - constructor; [exact O0|constructor; [exact O1|constructor; [exact O2|constructor]]].
  - simpl. exact K.
  - intros ss s. destruct ss as [|u [|v [|w [|? ?]]]]; simpl; try discriminate. intros Q. pose proof (sem_where_kind u v w) as Q'. rewrite Q in Q'. symmetry. exact Q'.
  - intros s Hs. simpl. apply (D s Hs).
  - exists [c]. cbn [ax_axes ax_expr]. split; [eapply yok_where; eauto|].
    split; auto. split; auto. eapply vfrep_one; [|exact FC]. intros s Hs. apply D; auto.
Qed.

(** 236-249 *)
Lemma case_concat a b x y ax :
  strict fl = true ->
  (let used := alignment [ax_axes x; ax_axes y] in
   let* _ := guard (negb (strict fl) || (covers idxs used x && covers idxs used y)) EAssert in
   let* x' := aligned x used true idxs in
   let* y' := aligned y used true idxs in mk_axial used (YConcat [x'; y'] (length used))) = Ok ax ->
  good (PConcat a b) -> result_ok a x -> result_ok b y -> result_ok (PConcat a b) ax.
Proof.
  intros STR H Hg R R2. cbv zeta in H. apply bind_ok in H as (u0 & CV & H). apply guard_ok in CV. rewrite STR in CV.
  apply andb_true_iff in CV as [CVx CVy]. apply bind_ok in H as (x' & Hx & H). apply bind_ok in H as (y' & Hy & H).
  apply mk_axial_inv in H as (-> & ND & (p & TP & _)).
  destruct (good_concat _ _ _ _ _ _ _ _ _ _ _ Hg) as [Ga Gb].
  set (used := alignment [ax_axes x; ax_axes y]) in *.
  assert (INu : incl used I).
  { apply alignment_incl. intros ax [<-|[<-|[]]]; [destruct R as (? & _ & _ & IN & _)|destruct R2 as (? & _ & _ & IN & _)]; auto. }
  destruct R as (l1 & Y1 & V1). destruct R2 as (l2 & Y2 & V2).
  destruct (aligned_ok N I X r x used true idxs x' _ _ Hx sizes_ctx ND INu Y1 V1) as (l1' & Z1 & L1 & _ & W1).
  destruct (aligned_ok N I X r y used true idxs y' _ _ Hy sizes_ctx ND INu Y2 V2) as (l2' & Z2 & L2 & _ & W2).
  cbn [into_axes] in W1, W2.
  cbn [ytyp mapM] in TP. rewrite (proj2 Z1), (proj2 Z2) in TP. cbn [bind mapM] in TP.
  apply bind_ok in TP as (ss & TS & TP). apply bind_ok in TS as (s1 & S1 & TS). apply bind_ok in TS as (ss' & S2 & TS).
  apply bind_ok in S2 as (s2 & S2 & _).
  destruct l1' as [|b1 [|? ?]]; try discriminate. destruct l2' as [|b2 [|? ?]]; try discriminate. clear S1 S2 TS TP.
  apply (vfrep_ext _ _ _ all_axes) with (V' := fun s => dval (E s) a) in W1; [|intros j Hj; apply covers_has with (axes := used); auto|auto].
  apply (vfrep_ext _ _ _ all_axes) with (V' := fun s => dval (E s) b) in W2; [|intros j Hj; apply covers_has with (axes := used); auto|auto].
  destruct (vfrep_one_inv _ _ _ _ _ _ W1) as (rest1 & k1 & F1 & HV1).
  destruct (vfrep_one_inv _ _ _ _ _ _ W2) as (rest2 & k2 & F2 & HV2).
  set (A1 := leaf (fun s => dval (E s) a) 0) in *. set (A2 := leaf (fun s => dval (E s) b) 0) in *.
  assert (D : forall s, wv N I s -> exists c, aconcat (A1 s) (A2 s) = Ok c /\ dval (E s) (PConcat a b) = VArr c).
  { intros s Hs. pose proof (good_den _ _ _ _ _ _ _ _ _ _ _ Hg Hs) as Q. cbn [den] in Q.
    rewrite (good_den _ _ _ _ _ _ _ _ _ _ _ Ga Hs), (good_den _ _ _ _ _ _ _ _ _ _ _ Gb Hs), HV1, HV2 in Q by auto.
    cbn [bind vconcat] in Q. apply bind_ok in Q as (c & Q1 & Q2). injection Q2 as Q2. exists c. auto. }
  set (A' := fun s => match aconcat (A1 s) (A2 s) with Ok c => c | Err _ => A1 s end).
  destruct (D _ (wv_zero N I)) as (c0 & D0 & _).
  destruct (fr_mem _ _ _ _ _ _ _ _ F1 _ (wv_zero N I)) as (_ & KA & SA).
  destruct (fr_mem _ _ _ _ _ _ _ _ F2 _ (wv_zero N I)) as (_ & KB & SB).
  unfold aconcat in D0. rewrite SA, SB in D0. destruct rest1 as [|n rest1]; [discriminate|].
  destruct rest2 as [|m rest2]; [discriminate|]. apply bind_ok in D0 as (u1 & Q1 & D0). apply bind_ok in D0 as (u2 & Q2 & _).
  apply guard_ok in Q1. apply guard_ok in Q2. apply list_nat_eqb_eq in Q1. apply kind_eqb_eq in Q2. rewrite KA, KB in Q2.
  subst rest2 k2.
  assert (HA' : forall s, wv N I s -> arr_wf (A' s) /\ akind (A' s) = k1 /\ ashape (A' s) = n + m :: rest1 /\
     forall j p, j < n + m -> inb rest1 p ->
       get (A' s) (j :: p) = if j <? n then get (A1 s) (j :: p) else get (A2 s) (j - n :: p)).
  { intros s Hs. unfold A'. destruct (D s Hs) as (c & Dc & _). rewrite Dc.
    destruct (fr_mem _ _ _ _ _ _ _ _ F1 s Hs) as (WA & KA' & SA').
    destruct (fr_mem _ _ _ _ _ _ _ _ F2 s Hs) as (WB & KB' & SB').
    pose proof (aconcat_wf _ _ _ WA WB Dc) as WC.
    unfold aconcat in Dc. rewrite SA', SB' in Dc.
    apply bind_ok in Dc as (u3 & _ & Dc). apply bind_ok in Dc as (u4 & _ & Dc). injection Dc as <-.
    split; auto. split; auto. split; auto. intros j q Hj Hq. rewrite get_tab by (apply inb_cons; auto). reflexivity. }
  destruct (concat_ok N I used n m rest1 k1 b1 b2 A1 A2 A' F1 F2 HA') as (c & CC & FC).
  exists [c]. cbn [ax_axes ax_expr].
  pose proof (frep_rank _ _ _ _ _ _ _ _ F1) as R1. pose proof (frep_rank _ _ _ _ _ _ _ _ F2) as R2.
  pose proof (frep_rank _ _ _ _ _ _ _ _ FC) as RC. cbn [length] in R1, R2, RC. unfold arank in *.
  split.
  - eapply yok_concat; eauto; try lia.
    + rewrite (fr_kind _ _ _ _ _ _ _ _ F1), (fr_kind _ _ _ _ _ _ _ _ F2). auto.
    + rewrite (fr_kind _ _ _ _ _ _ _ _ F1), (fr_kind _ _ _ _ _ _ _ _ FC). auto.
  - split; auto. split; auto. eapply vfrep_one; [|exact FC]. intros s Hs. unfold A'.
    destruct (D s Hs) as (c' & Dc & ->). rewrite Dc. auto.
Qed.

Lemma same_axes_iff a b : same_axes a b = true -> forall x, In x a <-> In x b.
Proof.
  unfold same_axes. intros H x. apply andb_true_iff in H as [H1 H2]. rewrite forallb_forall in H1, H2.
  split; intros Hx; apply mem_In; auto.
Qed.

(** 274-277 *)
Lemma case_cons a b x y ax : same_axes (ax_axes x) (ax_axes y) = true -> cons_axial x y = Ok ax ->
  good (PCons a b) -> result_ok a x -> result_ok b y -> result_ok (PCons a b) ax.
Proof.
  intros SA H Hg (l1 & Y1 & V1) (l2 & Y2 & V2).
  destruct (good_cons _ _ _ _ _ _ _ _ _ _ _ Hg) as [Ga Gb].
  destruct (cons_ok N I X r x y ax l1 l2 _ _ H (same_axes_iff _ _ SA) Y1 V1 Y2 V2) as (l & Y & V).
  exists l. split; auto. eapply vrep_ext; [|exact V]. intros s Hs. symmetry. apply dval_ok. cbn [den].
  rewrite (good_den _ _ _ _ _ _ _ _ _ _ _ Ga Hs), (good_den _ _ _ _ _ _ _ _ _ _ _ Gb Hs). reflexivity.
Qed.

Lemma pair_value t t1 t2 s : good t -> typ t = Ok (TPair t1 t2) -> wv N I s ->
  exists v w, dval (E s) t = VPair v w /\ has_type v t1 /\ has_type w t2.
Proof.
  intros Hg T Hs. pose proof (good_typed _ _ _ _ _ _ _ _ _ _ _ _ C t _ s Hg T Hs) as [W TV].
  destruct (dval (E s) t) as [v|v w].
  - simpl in TV. destruct (ashape v); discriminate.
  - simpl in TV. injection TV as TV1 TV2. destruct W as [W1 W2]. exists v, w. split; auto. split; split; auto.
Qed.

Definition vfst (v : val) : val := match v with VPair a _ => a | _ => v end.
Definition vsnd (v : val) : val := match v with VPair _ b => b | _ => v end.

(** 278-286 *)
Lemma case_first t t1 t2 p x ax : typ t = Ok (TPair t1 t2) -> primitive_type t1 = Ok p ->
  slice_tuple x 0 (length p) = Ok ax ->
  good (PFirst t) -> result_ok t x -> result_ok (PFirst t) ax.
Proof.
  intros T P H Hg (l & Y & ND & IN & V). assert (Gt := good_first _ _ _ _ _ _ _ _ _ _ Hg).
  destruct (slice_tuple_ok X r x _ _ ax l H Y) as (A1 & A2 & A3 & A4).
  apply primitive_leaves in P. subst p.
  exists (firstn (length (leaves 0 t1)) l). rewrite Nat.sub_0_r in A4. cbn [skipn] in A4. split; auto.
  rewrite A1. split; auto. split; auto.
  assert (V' : vfrep N I all_axes (ax_axes x) l (fun s => VPair (vfst (dval (E s) t)) (vsnd (dval (E s) t)))).
  { eapply vfrep_ext; [| |exact V]; auto. intros s Hs. destruct (pair_value t t1 t2 s Gt T Hs) as (v & w & -> & _). auto. }
  apply (vfrep_fst _ _ _ _ _ _ _ (length (leaves 0 t1))) in V' as [V' _].
  - eapply vfrep_ext; [| |exact V']; auto. intros s Hs. symmetry. apply dval_ok. cbn [den].
    rewrite (good_den _ _ _ _ _ _ _ _ _ _ _ Gt Hs). destruct (pair_value t t1 t2 s Gt T Hs) as (v & w & -> & _). reflexivity.
  - intros s Hs. destruct (pair_value t t1 t2 s Gt T Hs) as (v & w & -> & Q & _). simpl.
    apply has_type_leaves in Q. rewrite <- Q, map_length. auto.
  - auto.
Qed.

Lemma case_second t t1 t2 p q x ax : typ t = Ok (TPair t1 t2) -> primitive_type t1 = Ok p -> primitive_type t2 = Ok q ->
  slice_tuple x (length p) (length p + length q) = Ok ax ->
  good (PSecond t) -> result_ok t x -> result_ok (PSecond t) ax.
Proof.
  intros T P P2 H Hg (l & Y & ND & IN & V). assert (Gt := good_second _ _ _ _ _ _ _ _ _ _ Hg).
  destruct (slice_tuple_ok X r x _ _ ax l H Y) as (A1 & A2 & A3 & A4).
  apply primitive_leaves in P. subst p. apply primitive_leaves in P2. subst q.
  assert (V' : vfrep N I all_axes (ax_axes x) l (fun s => VPair (vfst (dval (E s) t)) (vsnd (dval (E s) t)))).
  { eapply vfrep_ext; [| |exact V]; auto. intros s Hs. destruct (pair_value t t1 t2 s Gt T Hs) as (v & w & -> & _). auto. }
  assert (LL : length l = length (leaves 0 t1) + length (leaves 0 t2)).
  { rewrite <- (proj1 V _ (wv_zero N I)). destruct (pair_value t t1 t2 _ Gt T (wv_zero N I)) as (v & w & -> & Q1 & Q2).
    simpl. apply has_type_leaves in Q1. apply has_type_leaves in Q2. rewrite <- Q1, <- Q2, !map_length, app_length. auto. }
  exists (skipn (length (leaves 0 t1)) l). split.
  - replace (length (leaves 0 t1) + length (leaves 0 t2) - length (leaves 0 t1)) with (length (skipn (length (leaves 0 t1)) l)) in A4
      by (rewrite skipn_length; lia).
    rewrite firstn_all in A4. auto.
  - rewrite A1. split; auto. split; auto.
    apply (vfrep_fst _ _ _ _ _ _ _ (length (leaves 0 t1))) in V' as [_ V'].
    + eapply vfrep_ext; [| |exact V']; auto. intros s Hs. symmetry. apply dval_ok. cbn [den].
      rewrite (good_den _ _ _ _ _ _ _ _ _ _ _ Gt Hs). destruct (pair_value t t1 t2 s Gt T Hs) as (v & w & -> & _). reflexivity.
    + intros s Hs. destruct (pair_value t t1 t2 s Gt T Hs) as (v & w & -> & Q & _). simpl.
      apply has_type_leaves in Q. rewrite <- Q, map_length. auto.
    + lia.
Qed.

(** 287-292 *)
Lemma case_ext t f ops xs ax :
  (let used := alignment (map ax_axes xs) in
   let* _ := guard (is_nil used) EAssert in
   let* ys := mapM (fun x => aligned x used false []) xs in
   let* p := primitive_type t in
   mk_axial used (YExt (rank_up (length used) p) f ys)) = Ok ax ->
  good (PExt t f ops) -> Forall2 result_ok ops xs -> result_ok (PExt t f ops) ax.
Proof.
  intros H Hg R. cbv zeta in H. apply bind_ok in H as (u & Gu & H). apply guard_ok in Gu.
  apply is_nil_true in Gu. rewrite Gu in H. apply bind_ok in H as (ys & Hys & H). apply bind_ok in H as (p & Hp & H).
  apply mk_axial_inv in H as (-> & ND & _). 
  assert (AX : forall x, In x xs -> ax_axes x = []).
  { intros x Hx. destruct (ax_axes x) as [|i l] eqn:Q; auto. exfalso.
    assert (K : In i (alignment (map ax_axes xs))) by (apply alignment_In; exists (ax_axes x); split; [apply in_map; auto|rewrite Q; left; auto]).
    rewrite Gu in K. destruct K. }
  assert (Gs := good_ext_parts _ _ _ _ _ _ _ _ _ _ _ _ Hg).
  assert (XK : forall o to, In o ops -> typ o = Ok to -> has_pair to = false).
  { pose proof (g_ext _ _ _ _ _ _ _ _ _ _ Hg) as Q. simpl in Q. apply Q. }
  assert (XT : forall l, match ext_call f l with Ok a => has_type (VArr a) t | Err er => er <> EType end).
  { pose proof (g_ext _ _ _ _ _ _ _ _ _ _ Hg) as Q. simpl in Q. apply Q. }
  (* constants *)
  assert (K : forall o x y, In o ops -> In x xs -> good o -> result_ok o x -> aligned x [] false [] = Ok y ->
    exists b, yok X r y [b] /\ forall s, wv N I s -> dval (E s) o = VArr b).
  { intros o x y Ho Hx Go (l & Y & V) HA. 
    destruct (g_typ _ _ _ _ _ _ _ _ _ _ Go) as (to & To).
    assert (L1 : length l = 1).
    { destruct V as (_ & _ & L & _). rewrite <- (L _ (wv_zero N I)).
      pose proof (good_typed _ _ _ _ _ _ _ _ _ _ _ _ C o to _ Go To (wv_zero N I)) as HT. apply has_type_leaves in HT.
      destruct (leaves_nopair to (XK o to Ho To)) as (n & k & Q). rewrite Q in HT. 
      rewrite <- (map_length aty), HT. reflexivity. }
    destruct (aligned_ok N I X r x [] false [] y _ _ HA (sizes_ok_nil _ _ _ _) (NoDup_nil _) (incl_nil_l _) Y V) as (l' & Y1 & L2 & _ & W).
    rewrite L1 in L2. destruct l' as [|b [|? ?]]; try discriminate. exists b. split; auto.
    destruct (vfrep_one_inv _ _ _ _ _ _ W) as (rest & k & F & HV).
    cbn [into_axes trim] in F.
    assert (RB : rep N I [] b (leaf (fun s => dval (E s) o) 0)).
    { split; [constructor|]. split; [intros ? []|]. exists rest, k. eapply frep_ext; [| |exact F]; auto. }
    intros s Hs. rewrite HV by auto. f_equal. apply (rep_nil N I b _ RB s Hs). }
  assert (K2 : exists l, Forall2 (fun y a => yok X r y [a]) ys l /\ forall s, wv N I s -> mapM (den (E s)) ops = Ok (map VArr l)).
  { apply mapM_Forall2 in Hys. clear Hg XT Gu.
    assert (K' : forall o x y, In o ops -> In x xs -> good o -> result_ok o x -> aligned x [] false [] = Ok y ->
      exists b, yok X r y [b] /\ forall s, wv N I s -> dval (E s) o = VArr b) by exact K. clear K XK AX.
    revert ys Hys. induction R as [|o x ops xs Ro R IH]; intros ys Hys; inversion Hys as [|? y ? ys' Hy Hys']; subst.
    - exists []. split; [constructor|auto].
    - inversion Gs as [|? ? Go Gs']; subst.
      destruct (K' o x y ltac:(left; auto) ltac:(left; auto) Go Ro Hy) as (b & Yb & Db).
      destruct (IH Gs') with (ys := ys') as (l & Yl & Dl); auto.
      { intros; eapply K'; eauto; right; auto. }
      exists (b :: l). split; [constructor; auto|]. intros s Hs. cbn [mapM map].
      rewrite (good_den _ _ _ _ _ _ _ _ _ _ _ Go Hs), (Db s Hs), (Dl s Hs). reflexivity. }
  destruct K2 as (l & Yl & Dl).
  assert (AA : mapM as_arr (map VArr l) = Ok l).
  { clear. induction l as [|a l IH]; simpl; auto. rewrite IH. reflexivity. }
  assert (D : forall s, wv N I s -> exists a, ext_call f l = Ok a /\ dval (E s) (PExt t f ops) = VArr a).
  { intros s Hs. pose proof (good_den _ _ _ _ _ _ _ _ _ _ _ Hg Hs) as Q. cbn [den] in Q. rewrite (Dl s Hs) in Q. cbn [bind] in Q.
    rewrite AA in Q. cbn [bind] in Q. apply bind_ok in Q as (a & Qa & Q). injection Q as Q. exists a. auto. }
  destruct (D _ (wv_zero N I)) as (a & Da & _). specialize (XT l). rewrite Da in XT.
  exists [a]. cbn [ax_axes ax_expr length]. rewrite rank_up_0. split.
  - eapply yok_ext; eauto. apply primitive_leaves in Hp. subst p. apply has_type_leaves in XT. simpl in XT. auto.
  - split; [constructor|]. split; [intros ? []|].
    destruct (rep_const N I a) as (_ & _ & rest & k & F); [destruct XT as [W _]; exact W|].
    eapply vfrep_one with (A := fun _ => a); [|exact F]. intros s Hs. destruct (D s Hs) as (a' & Da' & ->). congruence.
Qed.

End Cases.
