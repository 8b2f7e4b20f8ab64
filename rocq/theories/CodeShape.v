(** The operations of the generated code (phi_to_yarr.py:41-306): axes are
    inserted in increasing order, taken away one at a time, nothing is marked in
    place, and nothing is padded unless [use_slice_pads] is set. *)
From Coq Require Import Sorted.
From Verif Require Import Base Scalar Tensor Types Sym Phi Den NdOps NdFacts Term PhiTerm DenFree SpecPhi Lining Sizes ClipShift DenWf
  Yarr YTerm Axial Codegen YOps Cancel Compile CodeStage Torch.

Section Shape.
Context {FO : FloatOps}.
Variable fl : flags.
Variable orc : oracle.

Definition plain1 (n : yarr) : Prop :=
  match n with
  | YUnsqueeze axes _ => increasing axes
  | YSqueeze axes _ => exists k, axes = [k]
  | YPad _ _ _ => use_slice_pads fl = true
  | YBin _ _ _ m => m = None
  | _ => True
  end.
Definition plain (y : yarr) : Prop := forall n, sub_of n y -> plain1 n.

Lemma plain_intro y : plain1 y -> (forall c, In c (ysubs y) -> plain c) -> plain y.
Proof. intros H1 H2 n Hn. inversion Hn; subst; auto. eapply H2; eauto. Qed.
Lemma plain_leaf y : plain1 y -> ysubs y = [] -> plain y.
Proof. intros H1 E. apply plain_intro; auto. rewrite E. intros c []. Qed.
Lemma plain_one y t : plain1 y -> ysubs y = [t] -> plain t -> plain y.
Proof. intros H1 E P. apply plain_intro; auto. rewrite E. intros c [<-|[]]; auto. Qed.
Lemma plain_all y : plain1 y -> Forall plain (ysubs y) -> plain y.
Proof. intros H1 P. apply plain_intro; auto. apply Forall_forall. exact P. Qed.

Lemma mk_axial_expr axes y a : mk_axial axes y = Ok a -> a = mkAxial axes y.
Proof.
  unfold mk_axial. intros H. apply bind_ok in H as (u & _ & H). apply bind_ok in H as (p & _ & H). apply bind_ok in H as (u' & _ & H).
  injection H as <-. reflexivity.
Qed.
Lemma mk_plain axes y a : mk_axial axes y = Ok a -> plain y -> plain (ax_expr a).
Proof. intros H P. apply mk_axial_expr in H. subst a. exact P. Qed.
Lemma normal_plain a y : normal a = Ok y -> plain (ax_expr a) -> plain y.
Proof. unfold normal. destruct (ax_axes a); [|discriminate]. intros H. injection H as <-. auto. Qed.

(** * Alignment (axial.py:109-170) *)
Lemma expands_above axes into : forall p, Forall (le p) (map fst (expands_from axes p into)).
Proof.
  induction into as [|x into IH]; intros p; simpl; [constructor|]. destruct (mem x axes); simpl; [|constructor; auto];
    (eapply Forall_impl; [|apply (IH (S p))]; simpl; intros; lia).
Qed.
Lemma expands_increasing axes into : forall p, increasing (map fst (expands_from axes p into)).
Proof.
  induction into as [|x into IH]; intros p; simpl; [constructor|]. destruct (mem x axes); simpl; auto. constructor; [apply IH|].
  eapply Forall_impl; [|apply expands_above]. simpl. intros; lia.
Qed.
Lemma shift_increasing (l : list (nat * nat)) : increasing (map fst l) -> Forall (lt 0) (map fst l) ->
  increasing (map fst (map (fun p => (fst p - 1, snd p)) l)).
Proof.
  induction l as [|[p x] l IH]; simpl; intros H F; [constructor|]. inversion H; subst. inversion F; subst. constructor; [apply IH; auto|].
  rewrite Forall_forall in *. intros q Hq. rewrite map_map in Hq. apply in_map_iff in Hq as (r & <- & Hr). simpl.
  assert (p < fst r) by (apply H3; apply in_map; auto). lia.
Qed.
Lemma strip_increasing n : forall l, increasing (map fst l) -> increasing (map fst (strip_expands n l)).
Proof.
  induction n as [|n IH]; intros l H; simpl; auto. destruct l as [|[[|p] x] l]; auto. apply IH. simpl in H. inversion H; subst.
  apply shift_increasing; auto.
Qed.
Lemma repeats_plain repeats l : Forall (fun p => plain (snd p)) repeats -> forall y, plain y -> plain (add_repeats repeats l y).
Proof.
  intros R. induction l as [|[i x] l IH]; intros y P; simpl; auto. apply IH. destruct (assoc x repeats) as [n|] eqn:A; auto.
  apply plain_all; [exact I|]. simpl. repeat constructor; auto. rewrite Forall_forall in R.
  revert A. clear - R. induction repeats as [|[i n'] r IHr]; simpl; [discriminate|]. destruct (x =? i).
  - intros H. injection H as ->. apply (R (i, n)). simpl. auto.
  - intros H. apply IHr; auto. intros q Hq. apply R. simpl. auto.
Qed.
Lemma align_plain y axes into lp repeats y' : Forall (fun p => plain (snd p)) repeats -> plain y ->
  align y axes into lp repeats = Ok y' -> plain y'.
Proof.
  intros R P H. unfold align in H. apply bind_ok in H as (u & _ & H). apply bind_ok in H as (u' & _ & H). apply bind_ok in H as (r & _ & H).
  injection H as <-. apply repeats_plain; auto. apply plain_all.
  - simpl. destruct lp; [|apply strip_increasing]; apply expands_increasing.
  - simpl. repeat constructor. apply plain_all; [exact I|]. repeat constructor. auto.
Qed.
Lemma aligned_plain a into lp repeats y : Forall (fun p => plain (snd p)) repeats -> plain (ax_expr a) ->
  aligned a into lp repeats = Ok y -> plain y.
Proof.
  intros R P H. unfold aligned in H. apply bind_ok in H as (p & _ & H). destruct (length p =? 1); [eapply align_plain; eauto|].
  apply bind_ok in H as (l & Hl & H). injection H as <-. apply plain_all; [exact I|]. simpl.
  eapply mapM_all; [exact Hl|]. intros k z _ Hz. eapply align_plain; [exact R| |exact Hz].
  apply plain_all; [exact I|]. repeat constructor; auto.
Qed.
Lemma aligneds_plain l into lp repeats ys : Forall (fun p => plain (snd p)) repeats -> Forall (fun a => plain (ax_expr a)) l ->
  mapM (fun a => aligned a into lp repeats) l = Ok ys -> Forall plain ys.
Proof.
  intros R P H. rewrite Forall_forall in P. eapply mapM_all; [exact H|]. intros a y Ha Hy. eapply aligned_plain; [exact R| |exact Hy]. auto.
Qed.
Lemma along_plain a i s b : along a i s = Ok b -> plain (ax_expr a) -> plain s -> plain (ax_expr b).
Proof.
  intros H P S. unfold along in H. apply bind_ok in H as (r & _ & H). apply bind_ok in H as (u & _ & H).
  destruct (index_of i (ax_axes a)); apply mk_plain in H; auto.
  - apply plain_all; [exact I|]. repeat constructor; auto.
  - apply plain_all; [exact I|]. repeat constructor; auto. apply plain_all; repeat constructor; auto.
Qed.
Lemma untuple_plain k y j : plain y -> plain (untuple_maybe_singleton k y j).
Proof. intros P. unfold untuple_maybe_singleton. destruct (k =? 1); auto. apply plain_all; [exact I|]. repeat constructor; auto. Qed.
Lemma tuple_plain l : Forall plain l -> plain (tuple_maybe_singleton l).
Proof.
  intros P. destruct l as [|y [|z l]]; simpl; [apply plain_all; [exact I|auto]| |apply plain_all; [exact I|auto]]. inversion P; auto.
Qed.
Lemma untuples_plain k y l : plain y -> Forall plain (map (untuple_maybe_singleton k y) l).
Proof. intros P. apply Forall_forall. intros z Hz. apply in_map_iff in Hz as (j & <- & _). apply untuple_plain; auto. Qed.
Lemma cons_plain a b c : cons_axial a b = Ok c -> plain (ax_expr a) -> plain (ax_expr b) -> plain (ax_expr c).
Proof.
  intros H Pa Pb. unfold cons_axial in H. apply bind_ok in H as (p & _ & H). apply bind_ok in H as (q & _ & H).
  apply bind_ok in H as (x & Hx & H). apply bind_ok in H as (y & Hy & H). apply mk_plain in H; auto.
  assert (N : Forall (fun p : nat * yarr => plain (snd p)) []) by constructor.
  apply tuple_plain, Forall_app. split; apply untuples_plain; [eapply aligned_plain; [exact N|exact Pa|exact Hx]|eapply aligned_plain; [exact N|exact Pb|exact Hy]].
Qed.
Lemma slice_tuple_plain a i j b : slice_tuple a i j = Ok b -> plain (ax_expr a) -> plain (ax_expr b).
Proof.
  intros H P. unfold slice_tuple in H. apply bind_ok in H as (p & _ & H). apply bind_ok in H as (u & _ & H). apply mk_plain in H; auto.
  apply tuple_plain, untuples_plain; auto.
Qed.

(** * Indexing (array_indexing.py:66-177) *)
Lemma seq_increasing n : forall k, increasing (seq k n).
Proof.
  induction n as [|n IH]; intros k; simpl; constructor; [apply IH|]. apply Forall_forall. intros x Hx. apply in_seq in Hx. lia.
Qed.
Lemma put_at_plain n p y : plain y -> Forall plain (somes (put_at n p y)).
Proof.
  intros P. apply Forall_forall. intros z Hz. unfold put_at in Hz.
  assert (N : forall (A : Type) k (l : list (option A)), somes (repeat None k ++ l) = somes l) by (intros A k l; induction k; simpl; auto).
  rewrite N in Hz. simpl in Hz. destruct Hz as [<-|Hz]; auto. rewrite <- (app_nil_r (repeat None _)), N in Hz. destruct Hz.
Qed.
Lemma ybin_plain o a b : plain a -> plain b -> plain (ybin o a b).
Proof. intros A B. apply plain_all; [reflexivity|]. simpl. auto. Qed.
Lemma yint_plain z : plain (yint z).
Proof. apply plain_leaf; [exact I|reflexivity]. Qed.
Lemma pad_slice_plain t ax sh lo hi size y : pad_slice_get t ax sh lo hi size = Ok y -> use_slice_pads fl = true ->
  plain t -> plain sh -> plain lo -> plain hi -> plain size -> plain y.
Proof.
  intros H U T S L Hi Z. unfold pad_slice_get in H. apply bind_ok in H as (r & _ & H). apply bind_ok in H as (u & _ & H).
  apply bind_ok in H as (u' & _ & H). injection H as <-. pose proof (yint_plain 1) as O1. pose proof (yint_plain 0) as O0.
  apply plain_all; [exact U|]. constructor; [apply plain_all; [exact I|]; constructor; auto|];
    apply Forall_app; split; apply put_at_plain; repeat apply ybin_plain; auto.
Qed.
Lemma general_get_plain a b c : general_get a b = Ok c -> plain (ax_expr a) -> plain (ax_expr b) -> plain (ax_expr c).
Proof.
  intros H Pa Pb. unfold general_get in H. apply bind_ok in H as (r & _ & H). apply bind_ok in H as (t & Ht & H).
  apply bind_ok in H as (i & Hi & H). apply mk_plain in H; auto. apply plain_all; [simpl; eauto|]. repeat constructor.
  assert (N : Forall (fun p : nat * yarr => plain (snd p)) []) by constructor.
  apply plain_all; [exact I|]. repeat constructor; [eapply aligned_plain; [exact N|exact Pa|exact Ht]|].
  apply plain_all; [apply seq_increasing|]. repeat constructor. eapply aligned_plain; [exact N|exact Pb|exact Hi].
Qed.
Lemma assoc_plain (idxs : idx_sizes) i s : Forall (fun p => plain (snd p)) idxs -> assoc i idxs = Some s -> plain s.
Proof.
  intros R. induction R as [|[j n] r Hn R IH]; simpl; [discriminate|]. destruct (i =? j); auto. intros H. injection H as <-. exact Hn.
Qed.

Section Rec.
Variable rec : phi -> res axial.
Hypothesis REC : forall t a, rec t = Ok a -> plain (ax_expr a).

Lemma get_plain idxs t i a : Forall (fun p => plain (snd p)) idxs -> transform_get fl orc rec idxs t i = Ok a -> plain (ax_expr a).
Proof.
  intros R H. unfold transform_get in H. apply bind_ok in H as (tg & Ht & H). apply bind_ok in H as (rank & _ & H). cbv zeta in H.
  assert (OTH : forall a, (let* item := rec i in
    if use_takes fl && forallb (fun x => negb (mem x (ax_axes item))) (ax_axes tg) then
      let* p := positional_axis tg 0 in
      mk_axial (ax_axes tg ++ ax_axes item) (YTake (ax_expr tg) (put_at rank p (ax_expr item)))
    else general_get tg item) = Ok a -> plain (ax_expr a)).
  { clear a H. intros a H. apply bind_ok in H as (it & Hi & H). destruct (_ && _).
    - apply bind_ok in H as (p & _ & H). apply mk_plain in H; auto. apply plain_all; [exact I|]. simpl. constructor; eauto.
      apply put_at_plain; eauto.
    - eapply general_get_plain; eauto. }
  destruct (use_slice_pads fl) eqn:U; [|auto]. destruct (match_index_clipped_shift i) as [[index [[sh lo] hi]]|]; [|auto].
  destruct (smem (SX index) (free_indices t)); [auto|].
  destruct (_ && _ && _); [apply mk_plain in H; eauto|].
  apply bind_ok in H as (size & Hs & H). apply bind_ok in H as (d0 & Hd0 & H). apply bind_ok in H as (d & Hd & H).
  apply bind_ok in H as (p & _ & H).
  assert (OPT : forall (o : option phi) dflt y, (match o with Some e => let* a := rec e in normal a | None => Ok dflt end) = Ok y -> plain dflt -> plain y).
  { intros [e|] dflt y Ho P; [|injection Ho as <-; auto]. apply bind_ok in Ho as (b & Hb & Ho). eapply normal_plain; eauto. }
  pose proof (yint_plain 1) as O1. pose proof (yint_plain 0) as O0. assert (plain d) by (eapply normal_plain; eauto).
  apply bind_ok in H as (s' & Hs' & H). apply bind_ok in H as (l' & Hl' & H). apply bind_ok in H as (h' & Hh' & H).
  apply bind_ok in H as (y & Hy & H). apply mk_plain in H; auto.
  apply of_opt_ok in Hs. apply (pad_slice_plain _ _ _ _ _ _ _ Hy U); [eauto|exact (OPT _ _ _ Hs' O0)|exact (OPT _ _ _ Hl' O0)| |exact (assoc_plain _ _ _ R Hs)].
  apply (OPT _ _ _ Hh'). apply ybin_plain; auto.
Qed.
Lemma reduction_plain index c size acc init body a : match_reduction fl orc rec index c size acc init body = Ok (Some a) -> plain (ax_expr a).
Proof.
  unfold match_reduction. intros H. apply bind_ok in H as (ti & _ & H). destruct (_ || _); [discriminate|].
  destruct (match_reduction_by_body body acc) as [[elem r]|]; [|discriminate]. destruct (negb _); [discriminate|].
  apply bind_ok in H as (u & _ & H). cbv zeta in H. apply bind_ok in H as (tv & _ & H). apply bind_ok in H as (vec & Hv & H).
  apply bind_ok in H as (p & _ & H). apply bind_ok in H as (i0 & Hi & H). apply bind_ok in H as (i & Hn & H).
  apply bind_ok in H as (a0 & Ha & H). injection H as ->. apply mk_plain in Ha; auto. apply ybin_plain; [eapply normal_plain; eauto|].
  apply plain_all; [exact I|]. repeat constructor; eauto.
Qed.
End Rec.

Section Einsum.
Variable rec : idx_sizes -> phi -> res axial.
Hypothesis REC : forall idxs t a, Forall (fun p => plain (snd p)) idxs -> rec idxs t = Ok a -> plain (ax_expr a).

Lemma product_plain idxs ct realised sums args a : Forall (fun p => plain (snd p)) idxs -> Forall (fun p => plain (snd p)) sums ->
  go_product fl orc rec idxs ct realised sums args = Ok (Some a) -> plain (ax_expr a).
Proof.
  intros R S H. unfold go_product in H. destruct (negb _); [discriminate|]. cbv zeta in H. apply bind_ok in H as (ts & _ & H).
  apply bind_ok in H as (ops & Ho & H). apply bind_ok in H as (u & _ & H). apply bind_ok in H as (u' & _ & H).
  apply bind_ok in H as (s & _ & H). apply bind_ok in H as (a0 & Ha & H). injection H as ->. apply mk_plain in Ha; auto.
  apply plain_all; [exact I|]. simpl. apply Forall_map. eapply mapM_all; [exact Ho|]. intros e b _ Hb.
  eapply REC; [|exact Hb]. apply Forall_app. auto.
Qed.
Lemma products_plain f l ops : (forall p a, f p = Ok (Some a) -> plain (ax_expr a)) -> go_products f l = Ok (Some ops) ->
  Forall (fun a => plain (ax_expr a)) ops.
Proof.
  intros F. revert ops. induction l as [|p l IH]; intros ops H; simpl in H; [injection H as <-; constructor|].
  apply bind_ok in H as ([a|] & Ha & H); [|discriminate]. apply bind_ok in H as ([r|] & Hr & H); [|discriminate].
  injection H as <-. constructor; eauto.
Qed.
Lemma adds_plain ys : forall y, plain y -> Forall plain ys -> plain (fold_left (ybin BAdd) ys y).
Proof. induction ys as [|z ys IH]; intros y P F; simpl; auto. inversion F; subst. apply IH; auto. apply ybin_plain; auto. Qed.
Lemma einsum_plain idxs vax e a : Forall (fun p => plain (snd p)) idxs -> einsum_fold fl orc rec idxs vax e = Ok (Some a) -> plain (ax_expr a).
Proof.
  intros R H. unfold einsum_fold in H. apply bind_ok in H as (d & _ & H). destruct (_ || _); [discriminate|]. cbv zeta in H.
  apply bind_ok in H as (sizes & Hs & H). apply bind_ok in H as ([ops|] & Ho & H); [|discriminate].
  apply bind_ok in H as (u & _ & H). apply bind_ok in H as (ys & Hy & H).
  assert (S : Forall plain sizes).
  { eapply mapM_all; [exact Hs|]. intros p y _ Hp. apply bind_ok in Hp as (b & Hb & Hp). apply (normal_plain _ _ Hp). eauto. }
  assert (S' : Forall (fun p : nat * yarr => plain (snd p)) (combine (seq (fresh_index idxs vax e) (length (contract d))) sizes)).
  { apply Forall_forall. intros [i y] Hi. apply in_combine_r in Hi. rewrite Forall_forall in S. apply S. auto. }
  apply products_plain in Ho; [|intros p0 a0 Hp0; exact (product_plain _ _ _ _ _ _ R S' Hp0)].
  apply aligneds_plain in Hy; [|constructor|auto]. destruct ys as [|y ys]; [discriminate|]. apply bind_ok in H as (a0 & Ha & H).
  injection H as ->. apply mk_plain in Ha; auto. inversion Hy; subst. apply adds_plain; auto.
Qed.
End Einsum.

Theorem go_plain fuel : forall idxs vax e a, Forall (fun p => plain (snd p)) idxs -> go fl orc fuel idxs vax e = Ok a -> plain (ax_expr a).
Proof.
  induction fuel as [|fuel IH]; intros idxs vax e a R H; [discriminate|].
  assert (N : Forall (fun p : nat * yarr => plain (snd p)) []) by constructor.
  destruct e; cbn [go] in H.
  - (* PConst *) apply mk_plain in H; auto. apply plain_leaf; [exact I|reflexivity].
  - (* PStore *) destruct s as [x|i].
    + apply bind_ok in H as (p & _ & H). apply mk_plain in H; auto. apply plain_leaf; [exact I|reflexivity].
    + apply bind_ok in H as (s & Hs & H). apply mk_plain in H; auto. apply plain_all; [exact I|]. repeat constructor.
      apply of_opt_ok in Hs. exact (assoc_plain _ _ _ R Hs).
  - (* PLet *) apply bind_ok in H as (b & Hb & H). apply bind_ok in H as (r & Hr & H). apply mk_plain in H; auto.
    apply plain_all; [exact I|]. repeat constructor; eauto.
  - (* PAssertEq *) eauto.
  - (* PDim *) apply bind_ok in H as (b & Hb & H). apply bind_ok in H as (p & _ & H). apply mk_plain in H; auto.
    apply plain_all; [exact I|]. repeat constructor; eauto.
  - (* PGet *) eapply get_plain; [|exact R|exact H]. intros; eauto.
  - (* PCons *) apply bind_ok in H as (x & Hx & H). apply bind_ok in H as (y & Hy & H). apply bind_ok in H as (u & _ & H).
    eapply cons_plain; eauto.
  - (* PFirst *) apply bind_ok in H as (t & _ & H). destruct t; try discriminate. apply bind_ok in H as (p & _ & H).
    apply bind_ok in H as (x & Hx & H). eapply slice_tuple_plain; eauto.
  - (* PSecond *) apply bind_ok in H as (t & _ & H). destruct t; try discriminate. apply bind_ok in H as (p & _ & H).
    apply bind_ok in H as (q & _ & H). apply bind_ok in H as (x & Hx & H). eapply slice_tuple_plain; eauto.
  - (* PVec *) apply bind_ok in H as (s0 & Hs0 & H). apply bind_ok in H as (s & Hs & H). apply bind_ok in H as (b & Hb & H).
    assert (plain s) by (eapply normal_plain; eauto). apply (along_plain _ _ _ _ H); auto. refine (IH _ _ _ _ _ Hb). constructor; auto.
  - (* PFold *) apply bind_ok in H as (ein & He & H). destruct ein as [a0|].
    { injection H as ->. destruct (use_einsum fl); [|discriminate]. eapply einsum_plain; [|exact R|exact He]. simpl. intros; eauto. }
    apply bind_ok in H as (red & Hr & H). destruct red as [a0|].
    { injection H as ->. destruct (use_reductions fl); [|discriminate]. eapply reduction_plain; [|exact Hr]. intros; eauto. }
    apply bind_ok in H as (s0 & Hs0 & H). apply bind_ok in H as (s & Hs & H). apply bind_ok in H as (i & Hi & H).
    apply bind_ok in H as (b0 & Hb0 & H). apply bind_ok in H as (b & Hb & H). apply bind_ok in H as (u & _ & H).
    apply bind_ok in H as (yi & Hyi & H). apply bind_ok in H as (yb & Hyb & H). apply mk_plain in H; auto.
    apply plain_all; [exact I|]. repeat constructor.
    + eapply normal_plain; eauto.
    + eapply aligned_plain; [exact R| |exact Hyi]. eauto.
    + eapply aligned_plain; [exact N| |exact Hyb]. eauto.
  - (* PReduce *) apply bind_ok in H as (i & Hi & H). apply bind_ok in H as (vs & Hvs & H). apply bind_ok in H as (b0 & Hb0 & H).
    apply bind_ok in H as (b & Hb & H). apply bind_ok in H as (u & _ & H). apply bind_ok in H as (yi & Hyi & H).
    apply bind_ok in H as (ys & Hys & H). apply mk_plain in H; auto.
    assert (V : Forall (fun a => plain (ax_expr a)) vs) by (eapply mapM_all; [exact Hvs|]; eauto).
    apply aligneds_plain in Hys; auto.
    apply plain_all; [exact I|]. repeat constructor.
    + eapply aligned_plain; [exact R| |exact Hyi]. eauto.
    + eauto.
    + exact (tuple_plain ys Hys).
  - (* PUn *) assert (G : (let* x := go fl orc fuel idxs vax e in
      let* x' := aligned x (alignment [ax_axes x]) false [] in mk_axial (alignment [ax_axes x]) (YUn o x')) = Ok a -> plain (ax_expr a)).
    { clear H. intros H. apply bind_ok in H as (x & Hx & H). apply bind_ok in H as (x' & Hx' & H). apply mk_plain in H; auto.
      apply plain_all; [exact I|]. repeat constructor. eapply aligned_plain; [exact N| |exact Hx']. eauto. }
    destruct o; try (apply G; exact H). apply bind_ok in H as (x & Hx & H). apply mk_plain in H; auto.
    apply plain_all; [exact I|]. repeat constructor; eauto.
  - (* PBin *) apply bind_ok in H as (x & Hx & H). apply bind_ok in H as (y & Hy & H).
    apply bind_ok in H as (x' & Hx' & H). apply bind_ok in H as (y' & Hy' & H). apply mk_plain in H; auto.
    apply ybin_plain; [eapply aligned_plain; [exact N| |exact Hx']|eapply aligned_plain; [exact N| |exact Hy']]; eauto.
  - (* PWhere *) apply bind_ok in H as (z & Hz & H). apply bind_ok in H as (x & Hx & H). apply bind_ok in H as (y & Hy & H).
    apply bind_ok in H as (z' & Hz' & H). apply bind_ok in H as (x' & Hx' & H). apply bind_ok in H as (y' & Hy' & H).
    apply mk_plain in H; auto. apply plain_all; [exact I|]. repeat constructor;
      [eapply aligned_plain; [exact N| |exact Hz']|eapply aligned_plain; [exact N| |exact Hx']|eapply aligned_plain; [exact N| |exact Hy']]; eauto.
  - (* PConcat *) apply bind_ok in H as (x & Hx & H). apply bind_ok in H as (y & Hy & H). apply bind_ok in H as (u & _ & H).
    apply bind_ok in H as (x' & Hx' & H). apply bind_ok in H as (y' & Hy' & H). apply mk_plain in H; auto.
    apply plain_all; [exact I|]. repeat constructor; [eapply aligned_plain; [exact R| |exact Hx']|eapply aligned_plain; [exact R| |exact Hy']]; eauto.
  - (* PExt *) apply bind_ok in H as (xs & Hxs & H). apply bind_ok in H as (u & _ & H). apply bind_ok in H as (ys & Hys & H).
    apply bind_ok in H as (p & _ & H). apply mk_plain in H; auto.
    assert (V : Forall (fun a => plain (ax_expr a)) xs) by (eapply mapM_all; [exact Hxs|]; eauto).
    apply aligneds_plain in Hys; auto. apply plain_all; [exact I|]. exact Hys.
Qed.

Theorem lower_plain {EX : Externs} fuel e y : lower fl orc fuel e = Ok y -> plain y.
Proof.
  unfold lower. intros H. apply bind_ok in H as (a & Ha & H). apply (normal_plain _ _ H). eapply go_plain; [constructor|exact Ha].
Qed.

(** The cancellations keep it. *)
Lemma ymap_plain1 f n : plain1 n -> plain1 (ymap f n).
Proof. destruct n; simpl; auto. Qed.
Lemma exposes_plain f y : exposes f -> plain y -> plain (f y).
Proof. intros E P n Hn. apply exposes_nodes in Hn as (m & Hm & ->); auto. apply ymap_plain1. auto. Qed.
End Shape.
