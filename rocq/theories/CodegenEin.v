(** Sums of products compiled to einsum: phi_to_yarr.py:79-155. *)
From Verif Require Import Base Scalar Tensor Types Sym Phi Den Term PhiTerm DenFree SpecPhi Lining LiningFacts TypesFacts Typing DenWf Naive
  Sizes ClipShift NdOps NdFacts Yarr YWf Axial AxialFacts AxialOps Codegen IndexOps YOps CodegenSafe CodegenGet CodegenCtx CodegenCases
  Subst CodegenSub CodegenAxes CodegenCorrect CodegenRed Lift SumFacts LiftSem Subscripts EinOps.
From Coq Require Import Permutation.

Lemma in_combine_nth {A B} (l : list A) (m : list B) a b : In (a, b) (combine l m) ->
  exists j, nth_error l j = Some a /\ nth_error m j = Some b.
Proof.
  revert m. induction l as [|x l IH]; intros [|y m]; simpl; try tauto. intros [H|H].
  - injection H as -> ->. exists 0. auto.
  - destruct (IH m H) as (j & Q). exists (S j). auto.
Qed.
Lemma map_fst_filter_combine {A B} (f : A -> bool) (l : list A) : forall (m : list B), length l = length m ->
  map fst (filter (fun x => f (fst x)) (combine l m)) = filter f l.
Proof.
  induction l as [|x l IH]; intros [|y m] H; try discriminate; auto. cbn [combine filter fst].
  injection H as H. destruct (f x); cbn [map fst]; rewrite IH by auto; auto.
Qed.
Lemma combine_map {A B C} (f : A -> B) (g : A -> C) l : combine (map f l) (map g l) = map (fun x => (f x, g x)) l.
Proof. induction l; simpl; congruence. Qed.
Lemma Forall2_in_l {A B} (P : A -> B -> Prop) l m x : Forall2 P l m -> In x l -> exists y, In y m /\ P x y.
Proof.
  induction 1; intros []; subst; [eexists; split; [left; reflexivity|auto]|]. destruct IHForall2 as (z & ? & ?); auto.
  exists z. split; auto. right; auto.
Qed.
Lemma Forall2_in_r {A B} (P : A -> B -> Prop) l m y : Forall2 P l m -> In y m -> exists x, In x l /\ P x y.
Proof.
  induction 1; intros []; subst; [eexists; split; [left; reflexivity|auto]|]. destruct IHForall2 as (z & ? & ?); auto.
  exists z. split; auto. right; auto.
Qed.

Section Several.
Context {FO : FloatOps} {EX : Externs} {PO : PadOps}.

Fixpoint ctx_is (G : tctx) (is : list nat) : tctx :=
  match is with [] => G | i :: is => upd (ctx_is G is) (SX i) (TScalar KInt) end.

Lemma ctx_is_in G is i : In i is -> ctx_is G is (SX i) = Some (TScalar KInt).
Proof.
  induction is as [|j is IH]; intros []; simpl; [subst; apply upd_eq|].
  destruct (Nat.eq_dec i j) as [->|]; [apply upd_eq|]. rewrite upd_neq by congruence. auto.
Qed.
Lemma ctx_is_out G is q : (forall i, In i is -> q <> SX i) -> ctx_is G is q = G q.
Proof.
  induction is as [|j is IH]; intros H; simpl; auto. rewrite upd_neq by (apply H; left; auto). apply IH. intros; apply H; right; auto.
Qed.
Lemma upds_in {V} (E : genv V) l q v : NoDup (map fst l) -> In (q, v) l -> upds E l q = Some v.
Proof.
  revert E. induction l as [|[q0 v0] l IH]; intros E ND H; simpl in *; [tauto|]. inversion ND; subst. unfold upds. cbn [fold_left fst snd].
  destruct H as [H|H].
  - injection H as -> ->. fold (upds (upd E q v) l). rewrite upds_notin by auto. apply upd_eq.
  - apply IH; auto.
Qed.
Lemma bind_idx_in (E : env) (s : asg) is i : In i is -> bind_idx E is (map s is) (SX i) = Some (vnat (s i)).
Proof.
  induction is as [|j is IH]; intros []; simpl; [subst; apply upd_eq|].
  destruct (Nat.eq_dec i j) as [->|]; [apply upd_eq|]. rewrite upd_neq by congruence. auto.
Qed.
Lemma bind_idx_out (E : env) is : forall ks q, (forall i, In i is -> q <> SX i) -> bind_idx E is ks q = E q.
Proof.
  induction is as [|j is IH]; intros [|k ks] q H; simpl; auto. rewrite upd_neq by (apply H; left; auto). apply IH. intros; apply H; right; auto.
Qed.
Lemma set_asgs_out N is : forall ns i, ~ In i is -> set_asgs N is ns i = N i.
Proof.
  induction is as [|j is IH]; intros [|n ns] i H; simpl; auto. rewrite set_asg_neq by (intros ->; apply H; left; auto).
  apply IH. intros K; apply H; right; auto.
Qed.
Lemma set_asgs_at {A} (P : A -> nat -> Prop) N l : forall is ns, NoDup is -> Forall2 P l ns -> length is = length l ->
  forall q i, In (q, i) (combine l is) -> P q (set_asgs N is ns i).
Proof.
  induction l as [|a l IH]; intros [|j is] ns ND F HL q i H; simpl in *; try tauto. inversion F; subst. inversion ND; subst. simpl.
  destruct H as [H|H].
  - injection H as -> ->. rewrite set_asg_eq. auto.
  - rewrite set_asg_neq; [eapply IH; eauto|]. intros ->. apply in_combine_r in H. auto.
Qed.
Lemma set_asgs_self N is : forall ns, NoDup is -> length is = length ns -> map (set_asgs N is ns) is = ns.
Proof.
  induction is as [|i is IH]; intros [|n ns] ND H; try discriminate; auto. inversion ND; subst. injection H as H. cbn [map set_asgs].
  rewrite set_asg_eq. f_equal. rewrite <- (IH ns) at 2 by auto. apply map_ext_in. intros j Hj. apply set_asg_neq. intros ->. auto.
Qed.
Lemma binds_c_out (E : env) cs : forall ks q, (forall c, In c cs -> q <> SV c) -> binds_c E cs ks q = E q.
Proof.
  revert E. induction cs as [|c cs IH]; intros E [|k ks] q H; simpl; auto. rewrite IH by (intros; apply H; right; auto).
  apply upd_neq. apply H; left; auto.
Qed.
Lemma binds_c_in (E : env) cs : forall ks c k, NoDup cs -> In (c, k) (combine cs ks) -> binds_c E cs ks (SV c) = Some (vnat k).
Proof.
  revert E. induction cs as [|c0 cs IH]; intros E [|k0 ks] c k ND H; simpl in *; try tauto. inversion ND; subst. destruct H as [H|H].
  - injection H as -> ->. rewrite binds_c_out; [apply upd_eq|]. intros c' Hc' K. injection K as ->. auto.
  - eapply IH; eauto.
Qed.
Lemma sets_in s is : forall ks i k, NoDup is -> In (i, k) (combine is ks) -> sets s is ks i = k.
Proof.
  revert s. induction is as [|j is IH]; intros s [|k0 ks] i k ND H; simpl in *; try tauto. inversion ND; subst. destruct H as [H|H].
  - injection H as -> ->. rewrite sets_notin by auto. apply set_asg_eq.
  - eapply IH; eauto.
Qed.

Lemma ctx_indices N I X r idxs vax E G : ctx N I X r idxs vax E G -> forall is ns ys,
  NoDup is -> (forall i, In i is -> ~ In i I) -> length is = length ns ->
  Forall2 (fun y n => yok X r y [ascalar (SI (Z.of_nat n))]) ys ns ->
  ctx (set_asgs N is ns) (is ++ I) X r (combine is ys ++ idxs) vax (fun s => bind_idx (E s) is (map s is)) (ctx_is G is).
Proof.
  intros C. induction is as [|i is IH]; intros ns ys ND NI HL HY.
  - simpl. destruct ns; [|discriminate]. exact C.
  - destruct ns as [|n ns]; [discriminate|]. inversion HY; subst. inversion ND; subst. injection HL as HL. cbn [combine app set_asgs map bind_idx ctx_is].
    apply (ctx_index (set_asgs N is ns) (is ++ I) X r (combine is l ++ idxs) vax (fun s => bind_idx (E s) is (map s is)) (ctx_is G is)); auto.
    + apply IH; auto. intros j Hj. apply NI. right; auto.
    + rewrite in_app_iff. intros [K|K]; auto. apply (NI i); [left|]; auto.
Qed.

(** Free symbols after a substitution, with the key they come from. *)
Lemma substitute_fsyms_at sb (e : phi) s : (forall q, In q (map fst sb) -> ~ In q (bsyms e)) -> In s (fsyms (substitute e sb)) ->
  In s (fsyms e) \/ exists q u, In (q, u) sb /\ In q (fsyms e) /\ In s (fsyms u).
Proof.
  unfold substitute. generalize (tsize e). intros n. revert e. induction n as [|n IH]; intros e HB H; [auto|].
  cbn [substitute_go] in H. destruct (existsb _ _); [|auto].
  destruct (match symof e with Some s0 => sassoc s0 sb | None => None end) as [u|] eqn:Q.
  - destruct (symof e) as [s0|] eqn:SE; [|discriminate]. apply sassoc_some in Q. right. exists s0, u. split; auto. split; auto.
    change (In s0 (tfree e)). apply tfree_spec. split; auto. intros K. destruct e; try discriminate. destruct K.
  - clear Q. change (In s (tfree (rebuild e (map (substitute_go n sb) (subs e))))) in H.
    assert (L : length (map (substitute_go n sb) (subs e)) = length (subs e)) by apply map_length.
    apply tfree_spec in H as [H K]. rewrite capt_rebuild in K by auto. rewrite symof_rebuild, subs_rebuild in H by auto.
    destruct H as [H|(c & Hc & H)].
    + left. change (In s (tfree e)). apply tfree_spec. auto.
    + apply in_map_iff in Hc as (c' & <- & Hc).
      assert (HB' : forall q, In q (map fst sb) -> ~ In q (bsyms c')).
      { intros q Hq B. apply (HB q Hq). rewrite bsyms_list, in_app_iff. right. apply in_flat_map. eauto. }
      apply IH in H as [H|(q & u & Hq & H1 & H2)]; auto.
      * left. change (In s (tfree e)). apply tfree_spec. split; [right; exists c'; auto|auto].
      * right. exists q, u. split; auto. split; auto. change (In q (tfree e)). apply tfree_spec. split; [right; exists c'; auto|].
        intros B. apply (HB q); [apply in_map_iff; exists (q, u); auto|]. rewrite bsyms_list, in_app_iff. left. exact B.
Qed.

(** Positions of further indices do not matter. *)
Lemma frep_drop N N' I is res rest k b (A T : asg -> arr) :
  frep N' (is ++ I) all_axes res rest k b A ->
  (forall i, In i I -> N' i = N i) -> (forall i, In i is -> ~ In i I) -> incl res I ->
  (forall s, wv N' (is ++ I) s -> A s = T s) -> (forall s s', (forall i, In i I -> s i = s' i) -> T s = T s') ->
  frep N I all_axes res rest k b T.
Proof.
  intros FR HN HI HR HA HT.
  set (z := fun (s : asg) i => if mem i is then 0 else s i).
  assert (Z : forall s i, In i I -> z s i = s i).
  { intros s i Hi. unfold z. destruct (mem i is) eqn:Q; auto. apply mem_In in Q. exfalso. apply (HI i); auto. }
  assert (W : forall s, wv N I s -> wv N' (is ++ I) (z s)).
  { intros s Hs i Hi. unfold z. destruct (mem i is) eqn:Q; [lia|]. apply in_app_or in Hi as [Hi|Hi].
    - apply mem_In in Hi. congruence.
    - rewrite HN by auto. apply Hs; auto. }
  assert (AT : forall s, wv N I s -> A (z s) = T s).
  { intros s Hs. rewrite HA by auto. apply HT. intros i Hi. apply Z; auto. }
  constructor.
  - apply FR.
  - apply FR.
  - rewrite (fr_shape _ _ _ _ _ _ _ _ FR). f_equal. apply map_ext_in. intros i Hi. simpl. apply HN. auto.
  - intros s Hs. rewrite <- (AT s Hs). apply FR. auto.
  - intros s Hs HS p Hp. rewrite <- (AT s Hs). rewrite <- (fr_get _ _ _ _ _ _ _ _ FR (z s) (W s Hs)) with (p := p); auto.
    + f_equal. f_equal. apply map_ext_in. intros i Hi. simpl. rewrite Z; auto.
    + intros i Hi _. rewrite Z, HN by auto. apply HS; auto.
Qed.

Lemma einsum_letters axs res s : to_einsum_subs axs res = Ok s ->
  exists letter, s = (map (map letter) axs, map letter res) /\ inj_on letter (concat axs).
Proof.
  unfold to_einsum_subs. intros H. apply bind_ok in H as (al & Hal & H). injection H as <-.
  eexists. split; [reflexivity|]. apply add_letters_spec in Hal as (LE & IN & _).
  - intros x y Hx Hy.
    destruct (assoc_some x al) as (cx & Qx); [apply IN, in_or_app; auto|].
    destruct (assoc_some y al) as (cy & Qy); [apply IN, in_or_app; auto|].
    rewrite Qx, Qy. intros ->. eapply lettered_inj; eauto.
  - repeat split; [constructor|simpl; lia].
Qed.

Lemma yok_einsum X r s ys bs b : Forall2 (fun y a => yok X r y [a]) ys bs -> nd_einsum s bs = Ok b ->
  yok X r (YEinsum s ys) [b].
Proof.
  intros F E. destruct (yok_arrays _ _ _ _ F) as (A & _ & B). split.
  - intros r' Hr. cbn [yeval]. specialize (A r' Hr). apply bind_ok in A as (vs & A1 & A2). rewrite A1. cbn [bind]. rewrite A2. cbn [bind].
    rewrite E. reflexivity.
  - cbn [ytyp]. rewrite B. cbn [bind].
    assert (Q : mapM single (map (fun a => [aty a]) bs) = Ok (map aty bs)) by (clear; induction bs; simpl; [auto|rewrite IHbs; auto]).
    rewrite Q. cbn [bind].
    unfold nd_einsum in E. apply bind_ok in E as (u1 & _ & E). apply bind_ok in E as (u2 & G & E). apply guard_ok in G.
    repeat (apply bind_ok in E as (? & _ & E)). injection E as E.
    assert (Q2 : forallb (fun p => length (fst p) =? fst (snd p)) (combine (fst s) (map aty bs)) = true).
    { clear - G. revert G. generalize (fst s). induction bs as [|b bs IH]; intros [|x l]; simpl; auto. rewrite !andb_true_iff. intros [G1 G2].
      split; auto. }
    rewrite Q2. cbn [guard bind map]. rewrite <- E. unfold aty. simpl. rewrite map_length. reflexivity.
Qed.
End Several.

Lemma fresh_vax {FO : FloatOps} idxs vax (e : phi) i x : fresh_index idxs vax e <= i -> ~ In i (axes_of vax x).
Proof.
  unfold fresh_index, used_indices. intros H K. set (l := map fst idxs ++ flat_map snd vax ++ idx_nums (fsyms e ++ bsyms e)) in *.
  assert (N : ~ In i l).
  { intros K'. pose proof (proj1 (list_max_le l (list_max l)) (le_n _)) as Q. rewrite Forall_forall in Q. specialize (Q i K'). lia. }
  apply N. unfold l. rewrite !in_app_iff. right; left. unfold axes_of in K. destruct (assoc x vax) as [ax|] eqn:Q; [|destruct K].
  apply in_flat_map. exists (x, ax). split; auto. clear - Q. induction vax as [|[k a] v IH]; simpl in *; [discriminate|].
  destruct (Nat.eqb_spec x k) as [->|]; [injection Q as ->; auto|auto].
Qed.

Section Ein.
Context {FO : FloatOps} {EX : Externs} {PO : PadOps}.
Variable fl : flags.
Variable orc : oracle.
Variable padk : kind -> bool.
Variable pade : bool.
Notation goodt := (good fl orc padk pade).
Hypothesis LAWS : float_laws.
Hypothesis STR : strict fl = true.
Hypothesis EIN : use_einsum fl = true.
Variable rec : idx_sizes -> var_axes -> phi -> res axial.
Hypothesis REC : rec_spec fl orc padk pade rec.
Hypothesis AXES : forall idxs vax e a, rec idxs vax e = Ok a -> axes_ok vax e a.
Variables (N : nat -> nat) (I X : list nat) (r : yenv) (idxs : idx_sizes) (vax : var_axes) (E : asg -> env) (G : tctx).
Hypothesis C : ctx N I X r idxs vax E G.
Variables (c0 : nat) (size : phi) (acc : nat) (init body : phi).
Notation e := (PFold c0 size acc init body).
Hypothesis GE : goodt G N I X E e.
Variable d : dot.
Hypothesis LF : lift e = Ok d.
Hypothesis LS : lstat G (in_scope X I) e d.
Variable is : list nat.
Notation ct := (contract d).
Hypothesis LIS : length is = length ct.
Hypothesis NDI : NoDup is.
Hypothesis FI : forall i, In i is -> ~ In i I.
Hypothesis FE : forall i, In i is -> ~ In (SX i) (fsyms e ++ bsyms e).
Hypothesis FV : forall i x, In i is -> ~ In i (axes_of vax x).

Lemma ein_safe s f : wv N I s ->
  Forall (fun p => safe fl orc padk pade f N (E s) (snd p) /\ exists z, den_int (E s) (snd p) z /\ (0 <= z)%Z) ct /\
  forall ns ks, Forall2 (fun p n => den_int (E s) (snd p) (Z.of_nat n)) ct ns ->
    Forall2 (fun k n => k < Nat.max 1 n) ks ns ->
    forall args a, In args (products d) -> In a args ->
      let a' := substitute a (combine (map (fun p => SV (fst p)) ct) (map p_at is)) in
      safe fl orc padk pade f (set_asgs N is ns) (bind_idx (E s) is ks) a' /\ exists v, den (bind_idx (E s) is ks) a' = Ok v.
Proof.
  intros Hs. destruct (g_safe _ _ _ _ _ _ _ _ _ _ GE s Hs (S f)) as (_ & _ & _ & _ & Q). apply (Q EIN d is LF LIS NDI FE).
Qed.

Lemma ein_size_good q : In q ct -> goodt G N I X E (snd q).
Proof.
  intros Hq. destruct (l_size _ _ _ _ LS q Hq). constructor; eauto.
  - intros s Hs f. destruct (ein_safe s f Hs) as [Q _]. rewrite Forall_forall in Q. apply Q; auto.
  - intros s Hs. destruct (ein_safe s 1 Hs) as [Q _]. rewrite Forall_forall in Q. destruct (Q q Hq) as (_ & z & (v & D & _) & _). eauto.
Qed.

Definition size_is (q : nat * phi) (n : nat) : Prop :=
  forall s, wv N I s -> den (E s) (snd q) = Ok (VArr (ascalar (SI (Z.of_nat n)))).

Lemma ein_sizes sizes : mapM (fun p => let* a := rec idxs vax (snd p) in normal a) ct = Ok sizes ->
  exists ns, Forall2 size_is ct ns /\ Forall2 (fun y n => yok X r y [ascalar (SI (Z.of_nat n))]) sizes ns.
Proof.
  intros H. apply mapM_Forall2 in H.
  assert (GS : Forall (fun q => goodt G N I X E (snd q) /\ int_typed (snd q) /\
     exists z, den_int (E (fun _ => 0)) (snd q) z /\ (0 <= z)%Z) ct).
  { apply Forall_forall. intros q Hq. split; [apply ein_size_good; auto|]. split; [apply (l_size _ _ _ _ LS q Hq)|].
    destruct (ein_safe _ 1 (wv_zero N I)) as [Q _]. rewrite Forall_forall in Q. apply Q; auto. }
  revert GS. clear - H C REC. induction H as [|q y l m Hy H IH]; intros GS; inversion GS; subst.
  - exists []. auto.
  - destruct IH as (ns & F1 & F2); auto. apply bind_ok in Hy as (a & Ha & Hn). destruct H2 as (Gq & Tq & z & Dz & Z0).
    destruct (normal_ok fl orc padk pade rec REC N I X r idxs vax E G C _ _ _ Ha Hn Gq Tq) as (z' & Y & HZ).
    assert (D' : forall s, wv N I s -> den (E s) (snd q) = Ok (VArr (ascalar (SI z')))).
    { intros s Hs. rewrite <- (HZ s Hs). eapply good_den; eauto. }
    assert (z' = z).
    { destruct Dz as (v & D & S). rewrite (D' _ (wv_zero N I)) in D. injection D as <-. injection S as <-. auto. }
    subst z'. exists (Z.to_nat z :: ns).
    split; constructor; auto.
    + intros s Hs. rewrite Z2Nat.id by auto. apply D'; auto.
    + rewrite Z2Nat.id by auto. auto.
Qed.

Variable ns : list nat.
Variable sizes : list yarr.
Hypothesis NS : Forall2 size_is ct ns.
Hypothesis YS : Forall2 (fun y n => yok X r y [ascalar (SI (Z.of_nat n))]) sizes ns.

Notation N' := (set_asgs N is ns).
Notation I' := (is ++ I).
Notation E' := (fun s => bind_idx (E s) is (map s is)).
Notation G' := (ctx_is G is).
Notation sb := (map (fun p => (SV (fst p), p_at (snd p))) (combine (map fst ct) is)).

Lemma len_ns : length is = length ns.
Proof. rewrite LIS. apply (Forall2_len _ _ _ NS). Qed.

Lemma ein_ctx : ctx N' I' X r (combine is sizes ++ idxs) vax E' G'.
Proof. apply ctx_indices; auto. apply len_ns. Qed.

Lemma ein_N i : In i I -> N' i = N i.
Proof. intros Hi. apply set_asgs_out. intros K. apply (FI i); auto. Qed.
Lemma ein_wv s : wv N' I' s -> wv N I s.
Proof. intros H i Hi. rewrite <- ein_N by auto. apply H. apply in_or_app; auto. Qed.

Lemma sb_eq : combine (map (fun p => SV (fst p)) ct) (map p_at is) = sb.
Proof.
  generalize ct is. intros l. induction l as [|q l IH]; intros [|i m]; simpl; auto. rewrite IH. auto.
Qed.
Lemma sb_fst : map fst sb = map (fun q => SV (fst q)) ct.
Proof.
  rewrite <- sb_eq. apply map_fst_combine. rewrite !map_length. auto.
Qed.
Lemma sb_at q u : In (q, u) sb -> exists c i, q = SV c /\ u = p_at i.
Proof. intros H. apply in_map_iff in H as ([c i] & H & _). injection H as <- <-. eauto. Qed.
Lemma sb_in q u : In (q, u) sb <-> exists z i, In (z, i) (combine ct is) /\ q = SV (fst z) /\ u = p_at i.
Proof.
  rewrite in_map_iff. split.
  - intros ([c i] & H & K). injection H as <- <-. apply in_combine_nth in K as (j & K1 & K2). rewrite nth_error_map in K1.
    destruct (nth_error ct j) as [z|] eqn:Q; [|discriminate]. injection K1 as <-. exists z, i. split; auto.
    clear - Q K2. revert Q K2. generalize is ct. clear. induction j as [|j IH]; intros [|i0 is] [|z0 l]; simpl; try discriminate.
    + intros H1 H2. injection H1 as ->. injection H2 as ->. auto.
    + intros. right. apply IH; auto.
  - intros (z & i & K & -> & ->). exists (fst z, i). split; auto.
    clear - K. revert K. generalize is ct. clear. intros is l. revert is. induction l as [|z0 l IH]; intros [|i0 is]; simpl; try tauto.
    intros [K|K]; [injection K as -> ->; auto|auto].
Qed.

Lemma Forall2_size s : wv N I s -> Forall2 (fun q n => den_int (E s) (snd q) (Z.of_nat n)) ct ns.
Proof.
  intros Hs. clear - NS Hs. induction NS; constructor; auto. eexists. split; [apply H; auto|]. reflexivity.
Qed.
Lemma ein_ks s : wv N' I' s -> Forall2 (fun k n => k < Nat.max 1 n) (map s is) ns.
Proof.
  intros Hs. rewrite <- (set_asgs_self N is ns NDI len_ns).
  assert (H : forall i, In i is -> s i < Nat.max 1 (N' i)) by (intros i Hi; apply Hs, in_or_app; auto).
  revert H. generalize N'. clear. intros M H. induction is; constructor; [apply H; left; auto|]. apply IHl. intros; apply H; right; auto.
Qed.

Section Arg.
Variables (p : list phi) (a : phi).
Hypothesis HP : In p (products d).
Hypothesis HA : In a p.
Hypothesis NB : forall q, In q ct -> ~ In (SV (fst q)) (bsyms a).

Lemma arg_x i : In i is -> ~ In (SX i) (fsyms a) /\ ~ In (SX i) (bsyms a).
Proof.
  intros Hi. destruct (l_arg _ _ _ _ LS p a HP HA) as [_ _ _ _ _ FS BS]. split; intros K.
  - apply FS in K as [K|(c & _ & K)]; [|discriminate]. apply (FE i Hi). apply in_or_app; auto.
  - apply (FE i Hi). apply in_or_app. right. apply BS. auto.
Qed.
Lemma arg_nb q : In q (map fst sb) -> ~ In q (bsyms a).
Proof. rewrite sb_fst. intros H. apply in_map_iff in H as (z & <- & Hz). apply NB; auto. Qed.
Lemma arg_psub : substitute a sb = psub sb a.
Proof. apply substitute_psub. exact arg_nb. Qed.

Lemma arg_good t : typ (substitute a sb) = Ok t ->
  goodt G' N' I' X E' (substitute a sb) /\ typ (substitute a sb) = Ok (TScalar KFloat).
Proof.
  intros T. destruct (l_arg _ _ _ _ LS p a HP HA) as [TA SC IA XA FB FS BS].
  assert (ST : static sb (ctxd G ct) G' a t).
  { apply sub_static.
    - exact sb_at.
    - intros s u Hs. destruct s as [c|i].
      + simpl in Hs. destruct (mem c (map fst ct)) eqn:Q.
        * injection Hs as <-. apply mem_In in Q.
          destruct (sassoc (SV c) sb) as [u|] eqn:Q2.
          -- apply sassoc_some in Q2. apply sb_in in Q2 as (z & i & K & _ & ->). split; auto. exists i. split; auto.
             apply ctx_is_in. apply in_combine_r in K. auto.
          -- exfalso. assert (In (SV c) (map fst sb)).
             { rewrite sb_fst. apply in_map_iff in Q as (z & <- & Hz). apply in_map_iff. exists z. auto. }
             revert H Q2. clear. generalize sb, (SV c). clear. intros sb0 s H K. apply in_map_iff in H as ([q u] & <- & H). unfold sassoc in K.
             destruct (find _ sb0) eqn:F; [discriminate|]. apply (find_none _ _ F) in H. simpl in H. rewrite sym_eqb_refl in H. discriminate.
        * assert (NK : ~ In (SV c) (map fst sb)).
          { rewrite sb_fst. intros K. apply in_map_iff in K as (z & K & Hz). injection K as <-.
            apply not_true_iff_false in Q. apply Q. apply mem_In. apply in_map. auto. }
          rewrite sassoc_none by auto. rewrite ctx_is_out by congruence. auto.
      + rewrite sassoc_none. 2:{ rewrite sb_fst. intros K. apply in_map_iff in K as (z & K & _). discriminate. }
        simpl in Hs. rewrite ctx_is_out; auto. intros j Hj K. injection K as <-.
        apply (FI i Hj). apply (in_scope_x X). apply (c_dom _ _ _ _ _ _ _ _ C). congruence.
    - intros s Hs. split.
      + intros K. apply (arg_nb s); auto.
      + intros q i Hq ->. apply sb_in in Hq as (z & j & K & _ & Q). injection Q as <-. apply in_combine_r in K.
        destruct (arg_x i K); auto.
    - auto.
    - rewrite <- arg_psub. auto. }
  destruct ST as (TA' & S' & I1 & X1). rewrite TA in TA'. injection TA' as <-. rewrite <- arg_psub in *.
  split; auto. constructor; eauto.
  - rewrite arg_psub. apply psub_fresh; [apply at_atomic, sb_at|]. eapply fresh_binders_add; [exact FB|].
    intros [x|i] Hs; [left; apply in_scope_v; apply in_scope_v in Hs; auto|].
    apply in_scope_x in Hs. apply in_app_or in Hs as [Hs|Hs]; [right; apply arg_x; auto|left; apply in_scope_x; auto].
  - intros s Hs f. destruct (ein_safe s f (ein_wv s Hs)) as [_ Q]. rewrite sb_eq in Q. apply (Q ns (map s is)) with (args := p); auto.
    + apply Forall2_size; apply ein_wv; auto.
    + apply ein_ks; auto.
  - intros s Hs. destruct (ein_safe s 1 (ein_wv s Hs)) as [_ Q]. rewrite sb_eq in Q. apply (Q ns (map s is)) with (args := p); auto.
    + apply Forall2_size; apply ein_wv; auto.
    + apply ein_ks; auto.
Qed.

Lemma arg_value t s (F : env) : typ (substitute a sb) = Ok t -> wv N' I' s ->
  (forall z i, In (z, i) (combine ct is) -> In (SV (fst z)) (fsyms a) -> F (SV (fst z)) = Some (vnat (s i))) ->
  (forall q, ~ In q (map (fun z => SV (fst z)) ct) -> F q = E s q) ->
  dval (E' s) (substitute a sb) = vfloat (fden F a).
Proof.
  intros T Hs H1 H2. destruct (arg_good t T) as [GA TA].
  pose proof (good_den _ _ _ _ _ _ _ _ _ _ _ GA Hs) as D.
  pose proof (typed_float _ (good_typed _ _ _ _ _ _ _ _ _ _ _ _ ein_ctx _ _ s GA TA Hs)) as TF.
  pose proof D as D'. apply (subst_many a sb (map (fun i => vnat (s i)) is)) in D'.
  - assert (DF : den F a = Ok (dval (E' s) (substitute a sb))).
    { rewrite <- D'. apply den_irrel. intros q Hq.
      assert (QQ : combine (map fst sb) (map (fun i => vnat (s i)) is) = map (fun x => (SV (fst (fst x)), vnat (s (snd x)))) (combine ct is)).
      { rewrite sb_fst. generalize ct is. intros l. induction l as [|z l IH]; intros [|i m]; simpl; auto. rewrite IH; auto. }
      rewrite QQ. destruct (in_dec sym_eq_dec q (map (fun z => SV (fst z)) ct)) as [K|K].
      - apply in_map_iff in K as (z & <- & Hz). destruct Hq as [Hq|Hq]; [|destruct (NB z Hz Hq)].
        assert (exists i, In (z, i) (combine ct is)) as (i & Hi).
        { clear - Hz LIS. revert LIS Hz. generalize ct is. intros l. induction l as [|z0 l IH]; intros [|i m] HL Hz; simpl in *; try tauto; try discriminate.
          destruct Hz as [->|Hz]; [eauto|]. destruct (IH m) as (j & Hj); auto. eauto. }
        rewrite (H1 z i Hi Hq). symmetry. apply upds_in.
        + rewrite map_map. cbn [fst]. rewrite <- (map_map fst (fun z => SV (fst z))), map_fst_combine by auto.
          rewrite <- (map_map fst SV). apply FinFun.Injective_map_NoDup; [intros ? ? K; injection K; auto|apply LS].
        + apply in_map_iff. exists (z, i). auto.
      - rewrite (H2 q K). rewrite upds_notin.
        + symmetry. apply bind_idx_out. intros i Hi ->. destruct (arg_x i Hi). tauto.
        + intros K'. apply K. apply in_map_iff in K' as ([? ?] & <- & K'). apply in_map_iff in K' as ([z i] & Q & K').
          injection Q as <- <-. apply in_combine_l in K'. cbn [fst]. apply in_map_iff. eauto. }
    rewrite TF. unfold vfloat, fden. rewrite (dval_ok _ _ _ DF). rewrite <- TF. reflexivity.
  - rewrite sb_fst. rewrite <- (map_map fst SV). apply FinFun.Injective_map_NoDup; [intros ? ? K; injection K; auto|apply LS].
  - rewrite map_map. cbn [snd]. rewrite <- (map_map snd p_at), map_snd_combine by (rewrite map_length; auto).
    apply mapM_Forall2.
    assert (Q : forall l, incl l is -> Forall2 (fun x y => den (E' s) x = Ok y) (map p_at l) (map (fun i => vnat (s i)) l)).
    { induction l as [|i l IH]; intros HI; constructor.
      - unfold p_at. cbn [den]. rewrite bind_idx_in by (apply HI; left; auto). reflexivity.
      - apply IH. intros x Hx. apply HI. right; auto. }
    apply Q, incl_refl.
  - intros q u Hq. unfold bound_in. apply arg_nb. apply in_map_iff. exists (q, u). auto.
  - intros q u x Hq Hx. apply sb_in in Hq as (z & i & K & -> & ->). apply free_in_isfree, isfree_syms in Hx.
    destruct Hx as [[<-|[]]|[]]. unfold bound_in. apply in_combine_r in K. apply arg_x. auto.
Qed.
End Arg.

Section Product.
Variables (p : list phi) (op : axial).
Hypothesis HP : In p (products d).
Hypothesis HO : go_product fl orc (fun is_ t => rec is_ vax t) idxs ct (combine (map fst ct) is) (combine is sizes) p = Ok (Some op).

Let zf := filter (fun x : (nat * phi) * nat => mentions (fst (fst x)) p) (combine ct is).
Let cs := map (fun x : (nat * phi) * nat => fst (fst x)) zf.
Let js := map (snd (A := nat * phi) (B := nat)) zf.

Lemma prod_js_nd : NoDup js.
Proof. unfold js, zf. apply NoDup_map_filter. rewrite map_snd_combine by auto. auto. Qed.
Lemma prod_cs_nd : NoDup cs.
Proof.
  unfold cs, zf. apply NoDup_map_filter. rewrite <- (map_map fst fst), map_fst_combine by auto. apply LS.
Qed.
Lemma prod_js_in i : In i js <-> exists z, In (z, i) (combine ct is) /\ mentions (fst z) p = true.
Proof.
  unfold js, zf. rewrite in_map_iff. split.
  - intros ([z j] & <- & H). apply filter_In in H as [H1 H2]. eauto.
  - intros (z & H1 & H2). exists (z, i). split; auto. apply filter_In. auto.
Qed.
Lemma prod_js_is i : In i js -> In i is.
Proof. intros H. apply prod_js_in in H as (z & H & _). apply in_combine_r in H. auto. Qed.

Lemma prod_own s : wv N I s -> combine cs (map N' js) = own (E s) p ct.
Proof.
  intros Hs. unfold own, cs, js. rewrite map_map, combine_map.
  rewrite <- (map_fst_filter_combine (fun q => mentions (fst q) p) ct is) by auto. rewrite map_map. fold zf.
  apply map_ext_in. intros [z i] Hz. cbn [fst snd]. f_equal. unfold zf in Hz. apply filter_In in Hz as [Hz _].
  pose proof (set_asgs_at _ N ct is ns NDI NS LIS z i Hz s Hs) as D. unfold natof. rewrite (dval_ok _ _ _ D).
  change (val_int _) with (Ok (Z.of_nat (N' i))). cbv beta iota. rewrite Nat2Z.id. reflexivity.
Qed.

Hypothesis NB : forall a q, In a p -> In q ct -> ~ In (SV (fst q)) (bsyms a).
Hypothesis TY : forall a, In a p -> exists t, typ (substitute a sb) = Ok t.

Definition pfam (s : asg) : F := prodl (map (fun a => fof (dval (E' s) (substitute a sb))) p).

Lemma pfam_ext s s' : (forall i, s i = s' i) -> pfam s = pfam s'.
Proof.
  intros H. unfold pfam. rewrite (c_loc _ _ _ _ _ _ _ _ C s s') by auto. replace (map s' is) with (map s is) by (apply map_ext; auto). auto.
Qed.

Lemma prod_value s : wv N' I' s -> isum N' js pfam s = pterm ct (E s) p.
Proof.
  intros Hs. unfold pterm. rewrite <- (prod_own s (ein_wv s Hs)). apply isum_csum.
  - unfold cs, js. rewrite !map_length. auto.
  - intros ks Hks. set (s1 := sets s js ks). unfold pfam. f_equal. apply map_ext_in. intros a Ha.
    assert (LK : length ks = length js) by (apply (Forall2_len _ _ _ Hks)).
    assert (AT : forall z i, In (z, i) zf -> exists k, In (fst z, k) (combine cs ks) /\ In (i, k) (combine js ks)).
    { intros z i H. clear - H LK. unfold js, cs in *. rewrite map_length in LK. revert LK H. generalize zf. clear.
      intros l. revert ks. induction l as [|x l IH]; intros [|k ks] HL H; simpl in *; try tauto; try discriminate.
      destruct H as [->|H]; [exists k; auto|]. destruct (IH ks) as (k' & ? & ?); auto. exists k'. auto. }
    assert (W : wv N' I' s1).
    { intros i Hi. destruct (in_dec Nat.eq_dec i js) as [K|K].
      - unfold js in K. apply in_map_iff in K as ([z i'] & <- & K). cbn [snd] in *. destruct (AT _ _ K) as (k & _ & Hk).
        unfold s1. rewrite (sets_in s js ks i' k prod_js_nd Hk).
        assert (k < N' i').
        { clear - Hks Hk. revert Hk. generalize N' Hks. clear. intros M H. revert H. generalize js. intros l H.
          induction H; simpl; [tauto|]. intros [K|K]; [injection K as <- <-; auto|auto]. }
        lia.
      - unfold s1. rewrite sets_notin by auto. apply Hs; auto. }
    assert (ES : E s1 = E s).
    { apply (c_loc _ _ _ _ _ _ _ _ C). intros i Hi. unfold s1. apply sets_notin. intros K. apply prod_js_is in K. apply (FI i); auto. }
    destruct (TY a Ha) as (t & T). 
    rewrite (arg_value p a HP Ha (fun q => NB a q Ha) t s1 (binds_c (E s) cs ks) T W).
    + apply fof_scalar.
    + intros z i Hz Hf. destruct (AT z i) as (k & H1 & H2).
      { unfold zf. apply filter_In. split; auto. cbn [fst]. unfold mentions. apply existsb_exists. exists a. split; auto. apply smem_In; auto. }
      rewrite (binds_c_in _ _ _ _ _ prod_cs_nd H1). unfold s1. rewrite (sets_in s js ks i k prod_js_nd H2). auto.
    + intros q Hq. rewrite ES. apply binds_c_out. intros c Hc ->. apply Hq. unfold cs in Hc. apply in_map_iff in Hc as ([z i] & <- & Hz).
      unfold zf in Hz. apply filter_In in Hz as [Hz _]. apply in_combine_l in Hz. apply in_map_iff. exists z. auto.
Qed.
End Product.

(** One product: 97-132. *)
Lemma ein_product p op : In p (products d) ->
  go_product fl orc (fun is_ t => rec is_ vax t) idxs ct (combine (map fst ct) is) (combine is sizes) p = Ok (Some op) ->
  exists b, yok X r (ax_expr op) [b] /\ NoDup (ax_axes op) /\ incl (ax_axes op) I /\
    frep N I all_axes (ax_axes op) [] KFloat b (fun s => ascalar (SF (pterm ct (E s) p))).
Proof.
  intros HP HO. pose proof HO as HO'.
  apply go_product_inv in HO as (ts & ops & es & Hts & Hops & GA & GB & Hes & Hop).
  rewrite map_fst_combine in Hes, Hop by (rewrite len_ns; symmetry; apply (Forall2_len _ _ _ YS)).
  specialize (GA STR). specialize (GB STR).
  set (axs := map ax_axes ops) in *. set (res := filter (fun x => negb (mem x is)) (alignment axs)) in *.
  assert (NB : forall a q, In a p -> In q ct -> ~ In (SV (fst q)) (bsyms a)).
  { intros a q Ha Hq. assert (exists i, In (fst q, i) (combine (map fst ct) is)) as (i & Hi).
    { clear - Hq LIS. revert LIS Hq. generalize ct is. intros l. induction l as [|z0 l IH]; intros [|i m] HL Hz; simpl in *; try tauto; try discriminate.
      destruct Hz as [->|Hz]; [eauto|]. destruct (IH m) as (j & Hj); auto. eauto. }
    apply (GB _ a Hi Ha). }
  assert (TY : forall a, In a p -> exists t, typ (substitute a sb) = Ok t).
  { intros a Ha. apply mapM_Forall2 in Hts. destruct (Forall2_in_l _ _ _ (substitute a sb) Hts) as (t & _ & T); eauto.
    apply (in_map (fun e => substitute e sb)). auto. }
  apply mapM_Forall2 in Hops.
  assert (EO : exists eops, map eax eops = axs /\ Forall2 (fun y b => yok X r y [b]) (map ax_expr ops) (map earr eops) /\
     Forall (eop_ok N' I') eops /\ (forall x, In x eops -> incl (eax x) I') /\
     forall s, map (fun o => efam o s) eops = map (fun a => fof (dval (E' s) (substitute a sb))) p).
  { assert (Q : Forall2 (fun a o => In a p /\ rec (combine is sizes ++ idxs) vax (substitute a sb) = Ok o) p ops).
    { assert (Hq : forall l, Forall2 (fun x y => rec (combine is sizes ++ idxs) vax x = Ok y) (map (fun e => substitute e sb) l) ops ->
        incl l p -> Forall2 (fun a o => In a p /\ rec (combine is sizes ++ idxs) vax (substitute a sb) = Ok o) l ops).
      { clear. intros l. revert ops. induction l as [|a l IH]; intros ops H HI; inversion H; subst; constructor.
        - split; auto. apply HI. left; auto.
        - apply IH; auto. intros x Hx. apply HI. right; auto. }
      apply Hq; auto. apply incl_refl. }
    unfold axs. clear - Q REC TY NB HP C LS GE LF EIN NDI FI FE LIS NS YS.
    induction Q as [|a o l m (Ha & Ho) Q (eops & Q1 & Q2 & Q3 & Q4 & Q5)].
    - exists []. repeat split; auto; [constructor|]. intros x [].
    - destruct (TY a Ha) as (t & T). destruct (arg_good p a HP Ha (fun q => NB a q Ha) t T) as [GA TA].
      pose proof (REC _ _ _ _ _ _ _ _ _ _ Ho ein_ctx GA) as RO.
      destruct (result_scalar fl orc padk pade _ _ _ _ _ _ _ _ ein_ctx _ _ KFloat RO GA TA) as (b & Y & ND & IN & FR).
      exists ((ax_axes o, b, fun s => fof (dval (E' s) (substitute a sb))) :: eops).
      split; [simpl; f_equal; auto|]. split; [simpl; constructor; auto|]. split; [|split].
      + constructor; auto. unfold eop_ok. cbn [eax earr efam fst snd]. eapply frep_ext; [| |exact FR]; auto.
        intros s Hs. pose proof (typed_float _ (good_typed _ _ _ _ _ _ _ _ _ _ _ _ ein_ctx _ _ s GA TA Hs)) as TF. cbv beta in *.
        rewrite TF at 1. reflexivity.
      + intros x [<-|Hx]; auto.
      + intros s. simpl. f_equal. auto. }
  destruct EO as (eops & EA & EY & EOK & EI & EF).
  destruct (einsum_letters _ _ _ Hes) as (letter & -> & INJ).
  assert (RIN : forall x, In x res <-> In x (concat axs) /\ ~ In x is).
  { intros x. unfold res. rewrite filter_In, alignment_In, negb_true_iff, <- not_true_iff_false, mem_In, in_concat. tauto. }
  assert (CI : incl (concat axs) I').
  { intros x Hx. rewrite <- EA in Hx. apply in_concat in Hx as (l & Hl & Hx). apply in_map_iff in Hl as (o & <- & Ho). apply (EI o Ho). auto. }
  destruct (einsum_ok N' LAWS I' eops letter res) as (b & HB & SB & FR).
  { rewrite EA. auto. }
  { auto. }
  { rewrite EA. auto. }
  { apply NoDup_filter, alignment_NoDup. }
  { rewrite EA. intros x Hx. apply RIN in Hx. tauto. }
  rewrite EA in HB, FR. apply mk_axial_inv in Hop as (-> & ND & _). cbn [ax_expr ax_axes].
  exists b. split; [eapply yok_einsum; eauto|]. split; auto.
  assert (RI : incl res I).
  { intros x Hx. apply RIN in Hx as [H1 H2]. apply CI in H1. apply in_app_or in H1 as [H1|H1]; tauto. }
  split; auto.
  eapply frep_drop; [exact FR| | | | |]; auto.
  - apply ein_N.
  - intros s Hs. cbv beta. do 2 f_equal. rewrite <- (prod_value p HP NB TY s Hs).
    rewrite (isum_ext N' (inner_of axs res) _ (pfam p)) by (intros s'; unfold pfam; rewrite EF; auto).
    apply isum_perm; auto.
    + apply NoDup_Permutation; [apply NoDup_filter, dedup_NoDup|apply prod_js_nd|].
      intros x. unfold inner_of. rewrite filter_In, dedup_In, negb_true_iff, <- not_true_iff_false, mem_In, RIN, prod_js_in. split.
      * intros [H1 H2]. assert (Hx : In x is) by (destruct (in_dec Nat.eq_dec x is); tauto).
        apply in_concat in H1 as (l & Hl & H1). apply in_map_iff in Hl as (o & <- & Ho).
        destruct (Forall2_in_r _ _ _ _ Hops Ho) as (a' & Ha' & Hrec). apply in_map_iff in Ha' as (a & <- & Ha).
        destruct (proj2 (AXES _ _ _ _ Hrec) x H1) as [K|(y & K)]; [|destruct (FV x y Hx K)].
        apply substitute_fsyms_at in K as [K|(q & u & Hq & K1 & K2)].
        -- destruct (arg_x p a HP Ha x Hx). tauto.
        -- apply sb_in in Hq as (z & i & Hz & -> & ->). simpl in K2. destruct K2 as [K2|[]]. injection K2 as ->.
           exists z. split; auto. unfold mentions. apply existsb_exists. exists a. split; auto. apply smem_In; auto.
        -- intros q Hq. apply (arg_nb a (fun q => NB a q Ha) q Hq).
      * intros (z & Hz & M). pose proof (in_combine_r _ _ _ _ Hz) as Hx. split; [|tauto].
        unfold mentions in M. apply existsb_exists in M as (a & Ha & M). apply smem_In in M.
        apply (GA (fst z, x)); [|exists a; auto]. 
        clear - Hz. revert Hz. generalize ct is. intros l. induction l as [|z0 l IH]; intros [|i m]; simpl; try tauto.
        intros [H|H]; [injection H as -> ->; auto|auto].
    + apply NoDup_filter, dedup_NoDup.
    + intros s1 s2 Hss. apply pfam_ext. auto.
  - intros s s' H. rewrite (c_loc _ _ _ _ _ _ _ _ C s s') by auto. auto.
Qed.
End Ein.

Section Case.
Context {FO : FloatOps} {EX : Externs} {PO : PadOps}.
Variable fl : flags.
Variable orc : oracle.
Variable padk : kind -> bool.
Variable pade : bool.
Hypothesis LAWS : float_laws.
Hypothesis STR : strict fl = true.
Hypothesis EIN : use_einsum fl = true.
Variable rec : idx_sizes -> var_axes -> phi -> res axial.
Hypothesis REC : rec_spec fl orc padk pade rec.
Hypothesis AXES : forall idxs vax e a, rec idxs vax e = Ok a -> axes_ok vax e a.

Lemma aligned_float N I X r a used y' b (f : asg -> F) :
  aligned a used false [] = Ok y' -> NoDup used -> incl used I ->
  yok X r (ax_expr a) [b] -> NoDup (ax_axes a) -> incl (ax_axes a) I ->
  frep N I all_axes (ax_axes a) [] KFloat b (fun s => ascalar (SF (f s))) ->
  exists b', yok X r y' [b'] /\
    operand_ok N I used [] (mkOperand (ax_axes a) KFloat b' (fun s => ascalar (SF (f s)))).
Proof.
  intros H NDu INu Y ND IN FR.
  assert (V : vrep N I (ax_axes a) [b] (fun s => VArr (ascalar (SF (f s))))).
  { split; auto. split; auto. eapply vfrep_one with (A := fun s => ascalar (SF (f s))); eauto. }
  destruct (aligned_ok N I X r a used false [] y' _ _ H (sizes_ok_nil _ _ _ _) NDu INu Y V) as (l & Y1 & L1 & F1 & _).
  destruct l as [|b' [|? ?]]; try discriminate. exists b'. split; auto.
  specialize (F1 0 ltac:(simpl; lia) [] KFloat). cbn [nth] in F1. unfold operand_ok. cbn [o_ax o_kind o_arr o_fam].
  eapply frep_ext; cycle 2.
  - apply F1. eapply frep_ext; [| |exact FR]; auto.
  - cbv beta. intros; rewrite has_nil, orb_false_r; auto.
  - reflexivity.
Qed.

(** 79-155 *)
Lemma case_einsum N I X r idxs vax E G c size acc init body ax :
  ctx N I X r idxs vax E G ->
  einsum_fold fl orc (fun is_ t => rec is_ vax t) idxs vax (PFold c size acc init body) = Ok (Some ax) ->
  good fl orc padk pade G N I X E (PFold c size acc init body) ->
  result_ok N I X r E (PFold c size acc init body) ax.
Proof.
  intros C H GE. set (e := PFold c size acc init body) in *. unfold einsum_fold in H.
  apply bind_ok in H as (d & LF & H). destruct (is_nil (contract d)) eqn:NE; [discriminate|].
  destruct (negb _); [discriminate|]. cbn [orb] in H.
  apply bind_ok in H as (sizes & HS & H). apply bind_ok in H as (so & HO & H). destruct so as [ops|]; [|discriminate].
  apply bind_ok in H as (u & LSD & H). apply guard_ok in LSD. rewrite STR in LSD. cbn [negb orb] in LSD.
  apply bind_ok in H as (ys & HY & H).
  assert (LI : lifts true e d) by (eapply lift_lifts; eauto).
  assert (TE : typ e = Ok tfloat).
  { destruct (good_fold_parts _ _ _ _ _ _ _ _ _ _ _ _ _ _ GE) as (_ & _ & _ & t & Ti & _ & Te).
    assert (QI : init = PConst (ascalar (SF (f_of_Z 0)))).
    { clear - LI NE. unfold e in LI. inversion LI; subst; [discriminate NE|]. match goal with H : sum_body _ _ _ _ |- _ => apply H end. }
    subst init. simpl in Ti. injection Ti as <-. exact Te. }
  assert (DI : dom_in G (in_scope X I)) by (intros s Hs; apply (c_dom _ _ _ _ _ _ _ _ C); auto).
  assert (PR : pre G (in_scope X I) e) by (destruct GE; constructor; auto).
  pose proof (lifts_static e d LI G _ DI PR) as LS.
  set (i0 := fresh_index idxs vax e) in *. set (is := seq i0 (length (contract d))) in *.
  assert (LIS : length is = length (contract d)) by apply seq_length.
  assert (NDI : NoDup is) by apply seq_NoDup.
  assert (GEI : forall i, In i is -> i0 <= i) by (intros i Hi; apply in_seq in Hi; lia).
  assert (FI : forall i, In i is -> ~ In i I).
  { intros i Hi. apply (fresh_ctx _ _ _ _ _ _ _ _ e _ C (GEI i Hi)). }
  assert (FE : forall i, In i is -> ~ In (SX i) (fsyms e ++ bsyms e)).
  { intros i Hi. apply (fresh_from idxs vax e i (GEI i Hi)). }
  assert (FV : forall i x, In i is -> ~ In i (axes_of vax x)).
  { intros i x Hi. apply (fresh_vax idxs vax e i x (GEI i Hi)). }
  destruct (ein_sizes fl orc padk pade EIN rec REC N I X r idxs vax E G C c size acc init body GE d LF LS is LIS NDI FE sizes HS)
    as (ns & NS & YS).
  apply go_products_inv in HO.
  assert (PO' : Forall2 (fun p op => exists b, yok X r (ax_expr op) [b] /\ NoDup (ax_axes op) /\ incl (ax_axes op) I /\
     frep N I all_axes (ax_axes op) [] KFloat b (fun s => ascalar (SF (pterm (contract d) (E s) p)))) (products d) ops).
  { assert (Q : forall l m, Forall2 (fun p a => go_product fl orc (fun is_ t => rec is_ vax t) idxs (contract d) (combine (map fst (contract d)) is) (combine is sizes) p = Ok (Some a)) l m ->
      incl l (products d) -> Forall2 (fun p op => exists b, yok X r (ax_expr op) [b] /\ NoDup (ax_axes op) /\ incl (ax_axes op) I /\
     frep N I all_axes (ax_axes op) [] KFloat b (fun s => ascalar (SF (pterm (contract d) (E s) p)))) l m).
    { intros l m F. induction F as [|p op l m Hp F IH]; intros HI; constructor.
      - eapply (ein_product fl orc padk pade LAWS STR EIN rec REC AXES N I X r idxs vax E G C c size acc init body GE d LF LS is LIS NDI FI FE FV
          ns sizes NS YS p op); auto. apply HI; left; auto.
      - apply IH. intros x Hx. apply HI. right; auto. }
    apply Q; auto. apply incl_refl. }
  set (used := alignment (map ax_axes ops)) in *.
  assert (INu : incl used I).
  { intros x Hx. apply alignment_In in Hx as (ax' & Hax & Hx). apply in_map_iff in Hax as (op & <- & Hop).
    destruct (Forall2_in_r _ _ _ _ PO' Hop) as (p & _ & b & _ & _ & K & _). auto. }
  assert (NDu : NoDup used) by apply alignment_NoDup.
  apply mapM_Forall2 in HY.
  assert (OS : exists os, map fst os = map ax_axes ops /\
     (forall s, map (fun o : list nat * (asg -> F) => snd o s) os = map (pterm (contract d) (E s)) (products d)) /\
     Forall2 (fun y o => exists b, yok X r y [b] /\ operand_ok N I used [] (mkOperand (fst o) KFloat b (fun s => ascalar (SF (snd o s))))) ys os).
  { revert PO' HY. generalize (products d) ops ys. clear - NDu INu. intros l m n F. revert n. induction F as [|p op l m Hp F IH]; intros n HY; inversion HY; subst.
    - exists []. repeat split; auto.
    - destruct (IH _ H3) as (os & Q1 & Q2 & Q3). destruct Hp as (b & Y & ND & IN & FR).
      exists ((ax_axes op, fun s => pterm (contract d) (E s) p) :: os). split; [simpl; f_equal; auto|]. split.
      + intros s. simpl. f_equal. auto.
      + constructor; auto. cbn [fst snd]. eapply aligned_float; eauto. }
  destruct OS as (os & OS1 & OS2 & OS3). destruct ys as [|y ys]; [discriminate|].
  destruct os as [|[ax1 f1] os]; inversion OS3; subst. destruct H3 as (b1 & Y1 & OK1). cbn [fst snd] in *.
  apply bind_ok in H as (a & Ha & H). injection H as <-. apply mk_axial_inv in Ha as (-> & _ & _).
  destruct (adds_ok N LAWS I X r used y ax1 b1 f1 ys os Y1 OK1 H5) as (b & YB & OKB).
  exists [b]. cbn [ax_expr ax_axes]. split; auto. split; auto. split; auto.
  unfold operand_ok in OKB. cbn [o_ax o_kind o_arr o_fam] in OKB.
  assert (AX : forall x, In x used <-> In x (ax1 ++ concat (map fst os))).
  { intros x. unfold used. rewrite alignment_In, <- OS1. cbn [map fst]. change (ax1 ++ concat (map fst os)) with (concat (ax1 :: map fst os)).
    rewrite in_concat. tauto. }
  rewrite trim_all in OKB by (intros x Hx; apply AX; auto).
  eapply vfrep_one; [|eapply frep_ext; [| |exact OKB]].
  - intros s Hs. cbv beta.
    pose proof (lifts_sem LAWS e d LI G (in_scope X I) (E s) _ DI PR (c_typ _ _ _ _ _ _ _ _ C s Hs) (good_den _ _ _ _ _ _ _ _ _ _ _ GE Hs)) as V.
    rewrite V. unfold vfloat. do 3 f_equal. unfold dsum. rewrite <- (OS2 s). cbn [map snd]. reflexivity.
  - intros i Hi. cbv beta. apply mem_In. apply AX. auto.
  - auto.
Qed.
End Case.
