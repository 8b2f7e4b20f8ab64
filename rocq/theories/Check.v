(** A computable sufficient condition for [safe_all]. *)
From Verif Require Import Base Scalar Tensor Types Sym Phi Den Term PhiTerm DenFree SpecPhi Lining TypesFacts Typing DenWf Naive
  Sizes ClipShift NdOps NdFacts Yarr Axial AxialFacts AxialOps Codegen IndexOps YOps CodegenSafe Rename.

Section Check.
Context {FO : FloatOps} {EX : Externs}.
Variable fl : flags.
Variable padk : kind -> bool.
Variable pade : bool.

Definition int_at (E : env) (e : phi) : res Z := let* v := den E e in val_int v.
Definition sint_at (E : env) (e : phi) : res Z :=
  let* v := den E e in let* s := val_scalar v in match s with SI z => Ok z | _ => Err EType end.
Definition opt_ok {A} (f : A -> bool) (o : option A) : bool := match o with Some a => f a | None => true end.
Definition res_ok {A} (f : A -> bool) (r : res A) : bool := match r with Ok a => f a | Err _ => true end.
Definition is_ok {A} (r : res A) : bool := match r with Ok _ => true | Err _ => false end.

(** What is known of the sizes that the compiler takes to be equal: the answers
    to questions about the terms of the program; nothing about terms
    with an index that a reduction brings in. *)
Definition knowledge : Type := nat -> phi -> option bool.
Definition known (orc : oracle) : knowledge := fun i t => Some (eq_index orc i t).
Definition within (l : list nat) (K : knowledge) : knowledge :=
  fun i t => if mem i l && forallb (fun j => mem j l) (occ t) then K i t else None.

(** [pos]: all indices have positions. *)
Definition get_chk (K : knowledge) (pos : bool) (N : nat -> nat) (E : env) (t i : phi) : bool :=
  res_ok (fun v => res_ok (fun n =>
    match (if use_slice_pads fl then match_index_clipped_shift i else None) with
    | Some (index, (shift, low, high)) =>
        if smem (SX index) (free_indices t) then 1 <=? n
        else
          let elided := N index =? n in
          let padded := (1 <=? n) && (1 <=? N index) &&
             match v with
             | VArr a => padk (akind a) && (pade || (pos && forallb (fun d => 1 <=? d) (ashape a)))
             | _ => true
             end &&
             opt_ok (fun e => res_ok (fun z => (0 <=? z)%Z) (int_at E e)) low &&
             opt_ok (fun e => res_ok (fun z => ((0 <=? z) && (z <=? Z.of_nat n - 1))%Z) (int_at E e)) high in
          if use_slice_elision fl && (is_none shift && is_none low && is_none high) then
            match K index (dim_of t 0) with
            | Some true => elided
            | Some false => padded
            | None => elided && padded
            end
          else padded
    | None => 1 <=? n
    end) (vdim v 0)) (den E t).

Definition unused (e : phi) : nat := S (list_max (occ e)).

Fixpoint chk (fu : nat) (K : knowledge) (pos : bool) (N : nat -> nat) (E : env) (e : phi) {struct fu} : bool :=
  match fu with
  | 0 => false
  | S fu =>
  match e with
  | PConst _ | PStore _ _ => true
  | PLet x b body => chk fu K pos N E b && res_ok (fun v => chk fu K pos N (upd E (SV x) v) body) (den E b)
  | PAssertEq t _ | PDim t _ | PFirst t | PSecond t | PUn _ t => chk fu K pos N E t
  | PGet t i => chk fu K pos N E t && chk fu K pos N E i && get_chk K pos N E t i
  | PCons a b | PBin _ a b | PConcat a b => chk fu K pos N E a && chk fu K pos N E b
  | PVec i size body =>
      chk fu K pos N E size &&
      res_ok (fun z => (0 <=? z)%Z &&
        forallb (fun k => chk fu K (pos && (1 <=? z)%Z) (set_asg N i (Z.to_nat z)) (upd E (SX i) (vnat k)) body)
          (seq 0 (Nat.max 1 (Z.to_nat z)))) (int_at E size)
  | PFold c size acc init body =>
      chk fu K pos N E size && chk fu K pos N E init &&
      res_ok (fun z => forallb (fun k => res_ok (fun w => chk fu K pos N (fold_env E c acc k w) body) (acc_val E c acc init body k))
        (seq 0 (Z.to_nat z))) (int_at E size) &&
      (negb (use_reductions fl) ||
       match match_reduction_by_body body acc with
       | Some (elem, r) =>
           let vec := PVec (unused e) size (substitute elem [(SV c, p_at (unused e))]) in
           res_ok (fun z => (0 <=? z)%Z &&
             forallb (fun k => chk fu (within (occ e) K) (pos && forallb (fun n => 1 <=? n) [Z.to_nat z])
                 (set_asgs N [unused e] [Z.to_nat z]) (bind_idx E [unused e] [k]) (substitute elem [(SV c, p_at (unused e))]))
               (seq 0 (Nat.max 1 (Z.to_nat z)))) (int_at E size) &&
           is_ok (den E vec) &&
           match r with RAdd => true | _ => res_ok (fun z => (1 <=? z)%Z) (int_at E size) end
       | None => true
       end) &&
      (negb (use_einsum fl) ||
       match lift e with
       | Ok d =>
           if is_nil (contract d) then is_ok (den E e)
           else
             let is := seq (unused e) (length (contract d)) in
             match mapM (fun q => sint_at E (snd q)) (contract d) with
             | Ok zs =>
                 forallb (fun z => (0 <=? z)%Z) zs &&
                 forallb (fun q => chk fu K pos N E (snd q)) (contract d) &&
                 let ns := map Z.to_nat zs in
                 forallb (fun ks => forallb (forallb (fun a =>
                     let a' := substitute a (combine (map (fun q => SV (fst q)) (contract d)) (map p_at is)) in
                     chk fu (within (occ e) K) (pos && forallb (fun n => 1 <=? n) ns) (set_asgs N is ns) (bind_idx E is ks) a' &&
                     is_ok (den (bind_idx E is ks) a'))) (products d))
                   (all_idx (map (Nat.max 1) ns))
             | Err _ => false
             end
       | Err _ => true
       end)
  | PReduce _ _ _ _ _ => false
  | PWhere c a b => chk fu K pos N E c && chk fu K pos N E a && chk fu K pos N E b
  | PExt _ _ ops => forallb (chk fu K pos N E) ops
  end
  end.

Lemma int_at_ok E e v z : den E e = Ok v -> val_int v = Ok z -> int_at E e = Ok z.
Proof. unfold int_at. intros -> H. exact H. Qed.

Lemma int_at_den E e z : den_int E e z -> int_at E e = Ok z.
Proof.
  intros (v & D & K). unfold int_at, val_int. rewrite D. cbn [bind]. unfold val_scalar in K.
  apply bind_ok in K as (a & Ha & K). rewrite Ha. cbn [bind]. unfold as_int. rewrite K. reflexivity.
Qed.
Lemma sint_at_int E e z : sint_at E e = Ok z -> den_int E e z.
Proof.
  unfold sint_at. intros H. apply bind_ok in H as (v & D & H). apply bind_ok in H as (s & Hs & H).
  destruct s; try discriminate. injection H as ->. exists v. auto.
Qed.
Lemma is_ok_iff {A} (r : res A) : is_ok r = true -> exists a, r = Ok a.
Proof. destruct r; [eauto|discriminate]. Qed.

(** * Soundness *)

Lemma occ_fsyms e i : In (SX i) (fsyms e) -> In i (occ e).
Proof.
  assert (L : forall ops, Forall (fun e => In (SX i) (fsyms e) -> In i (occ e)) ops -> In (SX i) (flat_map fsyms ops) -> In i (flat_map occ ops)).
  { intros ops F H. apply in_flat_map in H as (o & Ho & H). rewrite Forall_forall in F. apply in_flat_map. eauto. }
  induction e using phi_ind'; cbn [occ fsyms]; rewrite ?sremove_In, ?in_app_iff; cbn [In]; rewrite ?in_app_iff; intros Hi; try tauto.
  - destruct Hi as [->|[]]. left. reflexivity.
  - destruct Hi; auto.
  - destruct Hi as [[Hi|[Hi|Hi]] _]; auto.
  - auto.
Qed.
Lemma occ_the e i : the_index (free_indices e) = Some i -> In i (occ e).
Proof.
  intros H. apply occ_fsyms. unfold free_indices in H. assert (Q : In (SX i) (filter is_index (fsyms e))).
  { destruct (filter is_index (fsyms e)) as [|[x|j] l]; cbn in H; try discriminate. destruct (forallb _ l); [|discriminate].
    injection H as <-. left. reflexivity. }
  apply filter_In in Q. tauto.
Qed.

Definition part_in (l : list nat) (o : option phi) : Prop := forall e, o = Some e -> incl (occ e) l.
Definition parts_in (l : list nat) (t : option clipped) : Prop :=
  match t with Some (d, lo, hi) => part_in l d /\ part_in l lo /\ part_in l hi | None => True end.
Lemma parts_more l m t : incl l m -> parts_in l t -> parts_in m t.
Proof. destruct t as [[[d lo] hi]|]; cbn; auto. unfold part_in. intros I (H1 & H2 & H3). repeat split; intros; eapply incl_tran; eauto. Qed.
Lemma part_none l : part_in l None.
Proof. intros e H. discriminate. Qed.
Lemma part_some l e : incl (occ e) l -> part_in l (Some e).
Proof. intros I e' H. injection H as <-. exact I. Qed.
Lemma parts_add l t o : parts_in l t -> incl (occ o) l -> parts_in l (clip_shift_add t o).
Proof.
  unfold clip_shift_add. destruct (negb _); cbn; auto. destruct t as [[[d [lo|]] [hi|]]|]; cbn; auto. intros (H1 & H2 & H3) I.
  repeat split; try apply part_none. apply part_some. destruct d; cbn; auto. apply incl_app; auto.
Qed.
Lemma parts_min l t o : parts_in l t -> incl (occ o) l -> parts_in l (clip_shift_min t o).
Proof.
  unfold clip_shift_min. destruct (negb _); cbn; auto. destruct t as [[[d lo] hi]|]; cbn; auto. intros (H1 & H2 & H3) I.
  repeat split; auto. apply part_some. destruct hi; cbn; auto. apply incl_app; auto.
Qed.
Lemma parts_max l t o : parts_in l t -> incl (occ o) l -> parts_in l (clip_shift_max t o).
Proof.
  unfold clip_shift_max. destruct (negb _); cbn; auto. destruct t as [[[d lo] hi]|]; cbn; auto. intros (H1 & H2 & H3) I.
  repeat split; auto.
  - apply part_some. destruct lo; cbn; auto. apply incl_app; auto.
  - destruct hi; cbn; [|apply part_none]. apply part_some. cbn. apply incl_app; auto.
Qed.
Lemma parts_first l a b : parts_in l a -> parts_in l b -> parts_in l (first_opt a b).
Proof. destruct a as [[[? ?] ?]|]; cbn; auto. Qed.
Lemma parts_nil l : parts_in l (Some (None, None, None)).
Proof. cbn. repeat split; apply part_none. Qed.
Lemma match_parts e s : parts_in (occ e) (match_clipped_shift e s).
Proof.
  induction e using phi_ind'; cbn [match_clipped_shift]; destruct (is_nil _); try apply parts_nil; try exact I.
  - destruct (sym_eqb s s0); [apply parts_nil|exact I].
  - apply (parts_more _ (occ e1 ++ occ e2)) in IHe1, IHe2; auto with datatypes.
    destruct o; try exact I; cbn [occ]; apply parts_first;
      first [apply parts_add | apply parts_min | apply parts_max]; cbn [occ]; auto with datatypes.
    unfold match_negated. destruct (is_nil _); [apply parts_nil|exact I].
Qed.

Section Sound.
Variable orc : oracle.

Definition knows (p : nat -> nat) (K : knowledge) : Prop :=
  forall i t b, K i t = Some b -> eq_index orc (p i) (rn p t) = b.

Lemma mem_In i l : mem i l = true <-> In i l.
Proof. unfold mem. rewrite existsb_exists. split; [intros (x & Hx & Q); apply Nat.eqb_eq in Q; congruence|exists i; rewrite Nat.eqb_refl; auto]. Qed.

Lemma knows_within p q l K : (forall i, In i l -> q i = p i) -> knows p K -> knows q (within l K).
Proof.
  intros H HK i t b. unfold within. destruct (mem i l && _) eqn:Q; [|discriminate]. intros R.
  apply andb_true_iff in Q as [Q1 Q2]. apply mem_In in Q1. rewrite forallb_forall in Q2.
  rewrite (H i Q1), (rn_ext q p t); [apply HK; exact R|]. intros j Hj. apply H, mem_In, Q2, Hj.
Qed.

(** What the soundness of a check at a term needs from the renamed context. *)
Record rel (p : nat -> nat) (e : phi) (K : knowledge) (pos : bool) (N N' : nat -> nat) (E E' : env) : Prop := mkRel {
  r_inj : forall i j, p i = p j -> i = j;
  r_knows : knows p K;
  r_agree : agree p e E E';
  r_asg : forall i, In i (occ e) -> N' (p i) = N i;
  r_pos : pos = true -> forall j, 1 <= N' j
}.
Lemma rel_sub p e c K pos N N' E E' : incl (occ c) (occ e) -> rel p e K pos N N' E E' -> rel p c K pos N N' E E'.
Proof. intros I [H1 H2 H3 H4 H5]. constructor; auto. eapply agree_sub; eauto. Qed.
Lemma rel_v p e K pos N N' E E' x v : rel p e K pos N N' E E' -> rel p e K pos N N' (upd E (SV x) v) (upd E' (SV x) v).
Proof. intros [H1 H2 H3 H4 H5]. constructor; auto. apply agree_v. exact H3. Qed.

Lemma get_chk_ok p K pos N N' E E' t i : rel p (PGet t i) K pos N N' E E' -> get_chk K pos N E t i = true ->
  get_safe fl orc padk pade N' E' (rn p t) (rn p i).
Proof.
  intros R H v n DV DN. unfold get_chk in H.
  assert (Rt : rel p t K pos N N' E E') by (eapply rel_sub; [|exact R]; cbn; auto with datatypes).
  assert (Ri : rel p i K pos N N' E E') by (eapply rel_sub; [|exact R]; cbn; auto with datatypes).
  destruct R as [inj KN AG NA HP].
  rewrite (rn_den p inj t E E' (r_agree _ _ _ _ _ _ _ _ Rt)) in DV.
  rewrite DV in H. cbn [res_ok] in H. rewrite DN in H. cbn [res_ok] in H.
  rewrite (rn_match_index p inj i).
  destruct (use_slice_pads fl); [|apply Nat.leb_le; exact H].
  destruct (match_index_clipped_shift i) as [[index [[shift low] high]]|] eqn:M; cbn [option_map fst snd rclip].
  2:{ apply Nat.leb_le. exact H. }
  assert (IN : In index (occ i) /\ parts_in (occ i) (Some (shift, low, high))).
  { unfold match_index_clipped_shift in M. destruct (the_index (free_indices i)) as [j|] eqn:TI; [|discriminate].
    pose proof (match_parts i (SX j)) as MP. destruct (match_clipped_shift i (SX j)) as [c|]; [|discriminate].
    cbn in M. injection M as -> ->. split; [apply occ_the; exact TI|exact MP]. }
  destruct IN as [IN (_ & PL & PH)].
  rewrite (rn_free_indices p inj t). change (SX (p index)) with (rs p (SX index)). rewrite (rs_smem p inj).
  destruct (smem (SX index) (free_indices t)); [apply Nat.leb_le; exact H|].
  rewrite (rn_dim_of p t 0).
  assert (NI : N' (p index) = N index) by (apply (r_asg _ _ _ _ _ _ _ _ Ri); exact IN).
  assert (PAD : (1 <=? n) && (1 <=? N index) &&
             match v with
             | VArr a => padk (akind a) && (pade || (pos && forallb (fun d => 1 <=? d) (ashape a)))
             | _ => true
             end &&
             opt_ok (fun e => res_ok (fun z => (0 <=? z)%Z) (int_at E e)) low &&
             opt_ok (fun e => res_ok (fun z => ((0 <=? z) && (z <=? Z.of_nat n - 1))%Z) (int_at E e)) high = true ->
    1 <= n /\ 1 <= N' (p index) /\
             (forall a, v = VArr a -> padk (akind a) = true /\
                (pade = true \/ ((forall j, 1 <= N' j) /\ Forall (lt 0) (ashape a)))) /\
             (forall e z, option_map (rn p) low = Some e -> den_int E' e z -> (0 <= z)%Z) /\
             (forall e z, option_map (rn p) high = Some e -> den_int E' e z -> (0 <= z <= Z.of_nat n - 1)%Z)).
  { clear H. intros H. repeat (apply andb_true_iff in H as [H ?]). apply Nat.leb_le in H. split; [exact H|].
    split; [rewrite NI; apply Nat.leb_le; auto|].
    assert (DI : forall e z, incl (occ e) (occ i) -> den_int E' (rn p e) z -> int_at E e = Ok z).
    { intros e z I (w & D & W). apply int_at_den. exists w. split; [|exact W].
      rewrite <- D. symmetry. apply rn_den; [exact inj|]. eapply agree_sub; [exact I|]. apply (r_agree _ _ _ _ _ _ _ _ Ri). }
    split; [|split].
    - intros a ->. apply andb_true_iff in H2 as [Q P]. split; [exact Q|]. apply orb_true_iff in P as [P|P]; [auto|right].
      apply andb_true_iff in P as [P1 P2]. split; [auto|]. rewrite forallb_forall in P2. rewrite Forall_forall.
      intros d Hd. apply P2 in Hd. apply Nat.leb_le in Hd. lia.
    - intros e z Q D. destruct low as [l|]; [|discriminate]. injection Q as <-. cbn [opt_ok] in H1.
      rewrite (DI l z (PL l eq_refl) D) in H1. apply Z.leb_le in H1. exact H1.
    - intros e z Q D. destruct high as [l|]; [|discriminate]. injection Q as <-. cbn [opt_ok] in H0.
      rewrite (DI l z (PH l eq_refl) D) in H0. apply andb_true_iff in H0 as [Q1 Q2]. apply Z.leb_le in Q1, Q2. lia. }
  replace (is_none (option_map (rn p) shift) && is_none (option_map (rn p) low) && is_none (option_map (rn p) high))
    with (is_none shift && is_none low && is_none high) by (destruct shift, low, high; reflexivity).
  destruct (use_slice_elision fl && _) eqn:EL; cbn [andb]; [|apply PAD; exact H].
  pose proof (KN index (dim_of t 0)) as KQ. destruct (K index (dim_of t 0)) as [[]|].
  - rewrite (KQ true eq_refl). intros _. rewrite NI. apply Nat.eqb_eq. exact H.
  - rewrite (KQ false eq_refl). apply PAD. exact H.
  - apply andb_true_iff in H as [H1 H2]. destruct (eq_index orc _ _); [|apply PAD; exact H2].
    intros _. rewrite NI. apply Nat.eqb_eq. exact H1.
Qed.

Lemma set_asg_rel p (inj : forall i j : nat, p i = p j -> i = j) N N' i n j : (j <> i -> N' (p j) = N j) ->
  set_asg N' (p i) n (p j) = set_asg N i n j.
Proof.
  intros H. unfold set_asg. destruct (Nat.eq_dec j i) as [->|Q].
  - rewrite !Nat.eqb_refl. reflexivity.
  - rewrite (proj2 (Nat.eqb_neq j i) Q), (proj2 (Nat.eqb_neq (p j) (p i))); auto.
Qed.


Lemma rel_x p e K pos N N' E E' i k n : rel p e K pos N N' E E' ->
  rel p e K (pos && (1 <=? n)) (set_asg N i n) (set_asg N' (p i) n) (upd E (SX i) (vnat k)) (upd E' (SX (p i)) (vnat k)).
Proof.
  intros [H1 H2 H3 H4 H5]. constructor; auto.
  - apply agree_x; auto.
  - intros j Hj. apply set_asg_rel; auto.
  - intros P j. apply andb_true_iff in P as [P Q]. apply Nat.leb_le in Q. unfold set_asg. destruct (j =? p i); [exact Q|auto].
Qed.

Lemma unused_occ e i : unused e <= i -> ~ In i (occ e).
Proof.
  unfold unused. intros H I. assert (Q : list_max (occ e) <= list_max (occ e)) by lia. rewrite list_max_le, Forall_forall in Q.
  specialize (Q i I). lia.
Qed.

(** The renamed indices of a contraction. *)
Lemma bind_agree p e E E' : (forall i j, p i = p j -> i = j) -> forall is ks, length ks = length is ->
  (forall x, E' (SV x) = E (SV x)) -> (forall i, In i (occ e) -> ~ In i is -> E' (SX (p i)) = E (SX i)) ->
  agree p e (bind_idx E is ks) (bind_idx E' (map p is) ks).
Proof.
  intros inj is ks L HV HX. assert (G : (forall x, bind_idx E' (map p is) ks (SV x) = bind_idx E is ks (SV x)) /\
    forall i, (~ In i is -> E' (SX (p i)) = E (SX i)) -> bind_idx E' (map p is) ks (SX (p i)) = bind_idx E is ks (SX i)).
  { clear HX. revert ks L. induction is as [|a is IH]; intros [|k ks] L; try discriminate; cbn [map bind_idx].
    - split; auto.
    - cbn in L. destruct (IH ks ltac:(lia)) as [G1 G2]. split.
      + intros x. unfold upd. cbn. apply G1.
      + intros i H. unfold upd. cbn. destruct (Nat.eq_dec i a) as [->|Q]; [rewrite !Nat.eqb_refl; reflexivity|].
        rewrite (proj2 (Nat.eqb_neq i a) Q), (proj2 (Nat.eqb_neq (p i) (p a))) by auto. apply G2. intros NI. apply H.
        cbn. intuition. }
  destruct G as [G1 G2]. split; auto.
Qed.
Lemma set_asgs_rel p N N' : (forall i j : nat, p i = p j -> i = j) -> forall is ns, length ns = length is ->
  forall i, (~ In i is -> N' (p i) = N i) -> set_asgs N' (map p is) ns (p i) = set_asgs N is ns i.
Proof.
  intros inj. induction is as [|a is IH]; intros [|n ns] L i H; try discriminate; cbn [map set_asgs]; auto.
  apply set_asg_rel; auto. intros Q. cbn in L. apply IH; [lia|]. intros NI. apply H. cbn. intuition.
Qed.
Lemma set_asgs_pos N : (forall j, 1 <= N j) -> forall is ns, forallb (fun n => 1 <=? n) ns = true -> forall j, 1 <= set_asgs N is ns j.
Proof.
  intros HN. induction is as [|a is IH]; intros [|n ns] H j; cbn [set_asgs]; auto. cbn [forallb] in H. apply andb_true_iff in H as [H1 H2].
  apply Nat.leb_le in H1. unfold set_asg. destruct (_ =? _); auto.
Qed.

Lemma rel_many p q e c K pos N N' E E' is ns ks : rel p e K pos N N' E E' ->
  (forall i j, q i = q j -> i = j) -> (forall i, In i (occ e) -> q i = p i) ->
  (forall i, In i (occ c) -> In i is \/ In i (occ e)) -> length ks = length is -> length ns = length is ->
  rel q c (within (occ e) K) (pos && forallb (fun n => 1 <=? n) ns) (set_asgs N is ns) (set_asgs N' (map q is) ns)
    (bind_idx E is ks) (bind_idx E' (map q is) ks).
Proof.
  intros [R1 R2 R3 R4 R5] Q1 Q2 OC LK LN. constructor; auto.
  - eapply knows_within; eassumption.
  - apply bind_agree; auto; [apply (proj1 R3)|]. intros i Hi NI. destruct (OC i Hi) as [|H]; [tauto|]. rewrite (Q2 i H). apply (proj2 R3). exact H.
  - intros i Hi. apply set_asgs_rel; auto. intros NI. destruct (OC i Hi) as [|H]; [tauto|]. rewrite (Q2 i H). apply R4. exact H.
  - intros P. apply andb_true_iff in P as [P1 P2]. apply set_asgs_pos; auto.
Qed.

Lemma rsub_one p c i : rsub p [(SV c, p_at i)] = [(SV c, p_at (p i))].
Proof. reflexivity. Qed.
Lemma rsub_many p : forall (cs : list nat) is, rsub p (combine (map SV cs) (map p_at is)) = combine (map SV cs) (map p_at (map p is)).
Proof. induction cs as [|c cs IH]; intros [|i is]; cbn; auto. f_equal. apply IH. Qed.

Lemma den_same p e K pos N N' E E' : rel p e K pos N N' E E' -> den E' (rn p e) = den E e.
Proof. intros R. apply rn_den; [apply (r_inj _ _ _ _ _ _ _ _ R)|apply (r_agree _ _ _ _ _ _ _ _ R)]. Qed.

Lemma lift_fold c size acc init body d : lift (PFold c size acc init body) = Ok d -> contract d = [] ->
  products d = [[PFold c size acc init body]].
Proof.
  cbn [lift]. destruct (match_summation _); [|intros H _; injection H as <-; reflexivity].
  destruct body; try (intros H _; injection H as <-; reflexivity). intros H. apply bind_ok in H as (d0 & _ & H).
  unfold dot_sum in H. apply bind_ok in H as (_ & _ & H). injection H as <-. cbn. intros Q. apply app_eq_nil in Q as [_ Q]. discriminate.
Qed.
Lemma substitute_nil (e : phi) : substitute e [] = e.
Proof.
  unfold substitute. destruct (tsize e); cbn; auto. destruct (existsb _ (fsyms e)) eqn:Q; auto.
  apply existsb_exists in Q as (s & _ & Q). discriminate.
Qed.
Lemma Forall2_det {A} (f : A -> Z -> Prop) (Hf : forall q a b, f q a -> f q b -> a = b) : forall l zs ns,
  Forall2 f l zs -> Forall2 (fun q n => f q (Z.of_nat n)) l ns -> ns = map Z.to_nat zs.
Proof.
  induction l as [|q l IH]; intros zs ns H1 H2; inversion H1; inversion H2; subst; auto. cbn. f_equal; [|apply IH; auto].
  assert (y = Z.of_nat y0) by eauto. subst. lia.
Qed.
Lemma mapM_F2 {A B} (f : A -> res B) : forall l bs, mapM f l = Ok bs -> Forall2 (fun a b => f a = Ok b) l bs.
Proof.
  induction l as [|a l IH]; cbn; intros bs H; [injection H as <-; constructor|].
  apply bind_ok in H as (b & Hb & H). apply bind_ok in H as (bs' & Hs & H). injection H as <-. constructor; auto.
Qed.
Lemma ks_in : forall ks ns, Forall2 (fun k n => k < Nat.max 1 n) ks ns -> In ks (all_idx (map (Nat.max 1) ns)).
Proof. intros ks ns H. apply all_idx_inb. induction H; cbn [map]; constructor; auto. Qed.

Lemma chk_sound fu : forall e p K pos N N' E E', rel p e K pos N N' E E' -> chk fu K pos N E e = true ->
  safe_all fl orc padk pade N' E' (rn p e).
Proof.
  induction fu as [|fu IH]; intros e p K pos N N' E E' R HC; [discriminate|].
  assert (SUB : forall c, incl (occ c) (occ e) -> chk fu K pos N E c = true -> forall f, safe fl orc padk pade f N' E' (rn p c)).
  { intros c I H. eapply IH; [eapply rel_sub; eassumption|exact H]. }
  assert (INTS : forall c, incl (occ c) (occ e) -> den E' (rn p c) = den E c).
  { intros c I. eapply den_same, rel_sub; eassumption. }
  intros f. induction f as [|f IHf]; [exact I|].
  destruct e; cbn [rn safe]; cbn [chk] in HC; try exact I; try discriminate.
  all: cbn [occ] in SUB, INTS.
  all: repeat match goal with K : _ && _ = true |- _ => apply andb_true_iff in K as [K ?] end.
  all: try (repeat split; apply SUB; auto with datatypes; fail).
  - split; [apply SUB; auto with datatypes|]. intros w D. rewrite INTS in D by auto with datatypes. rewrite D in H. cbn [res_ok] in H.
    eapply IH; [|exact H]. apply rel_v. eapply rel_sub; [|exact R]. cbn. auto with datatypes.
  - split; [apply SUB; auto with datatypes|]. split; [apply SUB; auto with datatypes|]. eapply get_chk_ok; eassumption.
  - split; [apply SUB; auto with datatypes|]. intros v z D Z. rewrite INTS in D by auto with datatypes.
    rewrite (int_at_ok _ _ _ _ D Z) in H. cbn [res_ok] in H.
    apply andb_true_iff in H as [Hz H]. apply Z.leb_le in Hz. split; [exact Hz|]. intros k Hk.
    rewrite forallb_forall in H. specialize (H k ltac:(apply in_seq; lia)).
    eapply IH; [|exact H]. replace (1 <=? z)%Z with (1 <=? Z.to_nat z).
    + apply rel_x. eapply rel_sub; [|exact R]. cbn. auto with datatypes.
    + destruct (Z.leb_spec 1 z), (Nat.leb_spec 1 (Z.to_nat z)); auto; lia.
  - rename H into EIN, H0 into RED, H1 into LOOP, H2 into INIT. rename e1 into size, e2 into init, e3 into body.
    set (e := PFold c size acc init body) in *.
    split; [apply SUB; auto with datatypes|]. split; [apply SUB; auto with datatypes|].
    assert (FR : forall i, ~ In (SX i) (fsyms (rn p e) ++ bsyms (rn p e)) -> ~ In i (map p (occ e))).
    { intros i Hn Hm. apply Hn, occ_syms. rewrite rn_occ. exact Hm. }
    split; [|split].
    + intros v z k w D Z Hk A. rewrite INTS in D by auto with datatypes.
      rewrite (int_at_ok _ _ _ _ D Z) in LOOP. cbn [res_ok] in LOOP.
      rewrite forallb_forall in LOOP. specialize (LOOP k ltac:(apply in_seq; lia)).
      assert (A' : acc_val E c acc init body k = Ok w).
      { rewrite <- A. unfold acc_val. rewrite INTS by auto with datatypes. destruct (den E init); cbn [bind]; auto.
        apply iter_res_ext. intros j b _. symmetry. eapply den_same. unfold fold_env. do 2 apply rel_v. eapply rel_sub; [|exact R].
        cbn. auto with datatypes. }
      rewrite A' in LOOP. cbn [res_ok] in LOOP. eapply IH; [|exact LOOP]. unfold fold_env. do 2 apply rel_v.
      eapply rel_sub; [|exact R]. cbn. auto with datatypes.
    + intros U index elem' r M NI. rewrite U in RED. cbn [negb orb] in RED.
      rewrite (rn_reduction p (r_inj _ _ _ _ _ _ _ _ R)) in M.
      destruct (match_reduction_by_body body acc) as [[elem r0]|] eqn:MB; [|discriminate]. injection M as <- <-.
      cbn [fst snd]. apply andb_true_iff in RED as [RED RZ]. apply andb_true_iff in RED as [RC RD].
      assert (OE : incl (occ elem) (occ body)).
      { destruct body; try discriminate. cbn in MB. destruct (match o with BAdd => Some RAdd | BMin => Some RMin | BMax => Some RMax | _ => None end); [|discriminate].
        destruct (is_store acc body1); [injection MB as <- <-; cbn; auto with datatypes|].
        destruct (is_store acc body2); [injection MB as <- <-; cbn; auto with datatypes|discriminate]. }
      destruct (extend p (occ e) (r_inj _ _ _ _ _ _ _ _ R) [unused e] [index]) as (q & Q1 & Q2 & Q3).
      { repeat constructor; auto. }
      { repeat constructor; auto. }
      { reflexivity. }
      { intros i [<-|[]]. apply unused_occ. lia. }
      { intros i [<-|[]]. apply FR. exact NI. }
      cbn in Q3. injection Q3 as Q3.
      set (vec := PVec (unused e) size (substitute elem [(SV c, p_at (unused e))])) in *.
      assert (VQ : PVec index (rn p size) (substitute (rn p elem) [(SV c, p_at index)]) = rn q vec).
      { unfold vec. cbn [rn]. rewrite Q3. f_equal.
        - symmetry. apply rn_ext. intros i Hi. apply Q2. cbn. auto with datatypes.
        - rewrite <- (rn_substitute q Q1), rsub_one, Q3. f_equal. symmetry. apply rn_ext. intros i Hi. apply Q2. cbn. apply in_or_app. right. auto with datatypes. }
      set (elem' := substitute elem [(SV c, p_at (unused e))]) in *.
      assert (OV : forall i, In i (occ elem') -> In i [unused e] \/ In i (occ e)).
      { intros i Hi. apply occ_substitute in Hi. cbn in Hi. rewrite !in_app_iff in Hi. cbn. rewrite !in_app_iff.
        destruct Hi as [Hi|[Hi|[]]]; auto. }
      assert (RV : forall n k, rel q elem' (within (occ e) K) (pos && forallb (fun n => 1 <=? n) [n]) (set_asgs N [unused e] [n])
         (set_asgs N' [index] [n]) (bind_idx E [unused e] [k]) (bind_idx E' [index] [k])).
      { intros n k. rewrite <- Q3. change [q (unused e)] with (map q [unused e]). eapply rel_many; eauto. }
      assert (SZ : rn q size = rn p size) by (apply rn_ext; intros i Hi; apply Q2; cbn; auto with datatypes).
      rewrite VQ. unfold vec. cbn [rn]. rewrite Q3, SZ. split; [|split].
      * destruct f as [|f]; [exact I|]. cbn [safe]. split; [apply SUB; auto with datatypes|].
        intros v z D Z. rewrite INTS in D by auto with datatypes. rewrite (int_at_ok _ _ _ _ D Z) in RC. cbn [res_ok] in RC.
        apply andb_true_iff in RC as [Hz RC]. apply Z.leb_le in Hz. split; [exact Hz|]. intros k Hk.
        rewrite forallb_forall in RC. specialize (RC k ltac:(apply in_seq; lia)). eapply (IH _ _ _ _ _ _ _ _ (RV _ _)). exact RC.
      * apply is_ok_iff in RD as (v & RD). exists v. rewrite <- RD. unfold vec. cbn [den]. rewrite INTS by auto with datatypes.
        assert (Hu : forall k, den (upd E' (SX index) (vnat k)) (rn q elem') = den (upd E (SX (unused e)) (vnat k)) elem').
        { intros k. exact (den_same _ _ _ _ _ _ _ _ (RV 0 k)). }
        destruct (den E size); cbn [bind]; auto. destruct (val_int a); cbn [bind]; auto.
        change (vint 0) with (vnat 0). rewrite Hu. destruct (den (upd E (SX (unused e)) (vnat 0)) elem'); cbn [bind]; auto.
        rewrite (mapM_ext _ (fun k => den (upd E (SX (unused e)) (vnat k)) elem')) by (intros; apply Hu). reflexivity.
      * intros v z NA D Z. rewrite INTS in D by auto with datatypes. rewrite (int_at_ok _ _ _ _ D Z) in RZ.
        destruct r0; [congruence| |]; apply Z.leb_le in RZ; exact RZ.
    + intros U d' is L LI ND NI. rewrite U in EIN. cbn [negb orb] in EIN.
      change (PFold c (rn p size) acc (rn p init) (rn p body)) with (rn p e) in *.
      rewrite (rn_lift p (r_inj _ _ _ _ _ _ _ _ R)) in L. destruct (lift e) as [d|] eqn:LE; [|discriminate].
      cbn [rmap bind] in L. injection L as <-. destruct (is_nil (contract d)) eqn:NIL.
      * assert (CN : contract d = []) by (destruct (contract d); [reflexivity|discriminate]).
        pose proof (lift_fold _ _ _ _ _ _ LE CN) as PR. cbn [rdot contract products] in *. rewrite CN, PR in *. cbn [map] in *.
        destruct is; [|discriminate]. split; [constructor|].
        intros ns ks F1 F2 args a Ha Hi. destruct Ha as [<-|[]]. destruct Hi as [<-|[]]. cbn [combine map].
        rewrite substitute_nil. inversion F1; subst. inversion F2; subst. cbn [bind_idx set_asgs]. split.
        -- apply IHf.
        -- apply is_ok_iff in EIN as (v & EIN). exists v. rewrite <- EIN. eapply den_same. exact R.
      * destruct (lift_occ e d LE) as [OC OA].
        destruct (mapM (fun q => sint_at E (snd q)) (contract d)) as [zs|] eqn:MZ; [|discriminate].
        apply mapM_F2 in MZ. apply andb_true_iff in EIN as [EIN ARGS]. apply andb_true_iff in EIN as [NN SZS].
        rewrite forallb_forall in NN, SZS.
        assert (LZ : length zs = length (contract d)) by (clear - MZ; induction MZ; cbn; auto).
        set (is0 := seq (unused e) (length (contract d))) in *.
        destruct (extend p (occ e) (r_inj _ _ _ _ _ _ _ _ R) is0 is) as (q & Q1 & Q2 & Q3).
        { apply seq_NoDup. } { exact ND. }
        { rewrite LI. unfold is0. rewrite seq_length. cbn. rewrite map_length. reflexivity. }
        { intros i Hi. apply in_seq in Hi. apply unused_occ. lia. }
        { intros i Hi. apply FR. auto. }
        assert (DI : forall s z, incl (occ s) (occ e) -> den_int E' (rn p s) z <-> den_int E s z).
        { intros s z I. unfold den_int. rewrite INTS by exact I. reflexivity. }
        split.
        { cbn [rdot contract]. rewrite Forall_forall. intros x Hx. apply in_map_iff in Hx as (y & <- & Hy). cbn [fst snd]. split.
          - apply SUB; [apply OC; exact Hy|apply SZS; exact Hy].
          - assert (Z : exists z, In z zs /\ sint_at E (snd y) = Ok z).
            { clear - MZ Hy. induction MZ; [destruct Hy|]. destruct Hy as [<-|Hy]; [eexists; cbn; eauto|].
              destruct (IHMZ Hy) as (z & ? & ?). exists z. cbn. auto. }
            destruct Z as (z & Hz & Z). exists z. split; [|apply Z.leb_le, NN, Hz]. apply DI; [apply OC; exact Hy|]. apply sint_at_int. exact Z. }
        intros ns ks F1 F2 args a Ha Hi. cbn [rdot contract products] in *.
        assert (NS : ns = map Z.to_nat zs).
        { apply (Forall2_det (fun q z => den_int E (snd q) z)) with (l := contract d).
          - intros x y z. apply den_int_det.
          - clear - MZ. induction MZ; constructor; auto. apply sint_at_int. exact H.
          - clear - F1 DI OC. revert ns F1. induction (contract d) as [|x l IHl]; intros ns F1; inversion F1; subst; constructor.
            + apply DI; [apply OC; left; reflexivity|]. exact H1.
            + apply IHl; auto. intros w Hw. apply OC. right. exact Hw. }
        rewrite forallb_forall in ARGS. rewrite <- NS in ARGS. specialize (ARGS ks (ks_in _ _ F2)).
        apply in_map_iff in Ha as (args0 & <- & Ha). apply in_map_iff in Hi as (a0 & <- & Hi).
        rewrite forallb_forall in ARGS. specialize (ARGS _ Ha). rewrite forallb_forall in ARGS. specialize (ARGS _ Hi).
        apply andb_true_iff in ARGS as [C1 C2]. rewrite map_map. cbn [fst].
        set (a' := substitute a0 _) in *.
        assert (AE : substitute (rn p a0) (combine (map (fun x => SV (fst x)) (contract d)) (map p_at is)) = rn q a').
        { unfold a'. rewrite <- (rn_substitute q Q1). rewrite <- (map_map fst SV), rsub_many, Q3. f_equal.
          apply rn_ext. intros i Hi'. symmetry. apply Q2. eapply OA; eauto. }
        rewrite AE, <- Q3.
        assert (LN : length ns = length is0) by (rewrite NS, map_length, LZ; unfold is0; rewrite seq_length; reflexivity).
        assert (LK : length ks = length is0) by (rewrite <- LN; clear - F2; induction F2; cbn; auto).
        assert (RA : rel q a' (within (occ e) K) (pos && forallb (fun n => 1 <=? n) ns) (set_asgs N is0 ns) (set_asgs N' (map q is0) ns)
           (bind_idx E is0 ks) (bind_idx E' (map q is0) ks)).
        { eapply rel_many; eauto. intros i Hi'. apply occ_substitute in Hi'. apply in_app_or in Hi' as [Hi'|Hi'].
          - right. eapply OA; eauto.
          - left. apply in_flat_map in Hi' as ([s u] & Hu & Hi'). cbn in Hi'. apply in_combine_r in Hu.
            apply in_map_iff in Hu as (i' & <- & Hu). cbn in Hi'. destruct Hi' as [<-|[]]. exact Hu. }
        split; [exact (IH _ _ _ _ _ _ _ _ RA C1 f)|].
        apply is_ok_iff in C2 as (v & C2). exists v. rewrite <- C2. exact (den_same _ _ _ _ _ _ _ _ RA).
  - rewrite Forall_forall. intros x Hx. apply in_map_iff in Hx as (x' & <- & Hx). rewrite forallb_forall in HC. apply SUB; auto.
    intros i Hi. apply in_flat_map. eauto.
Qed.

Lemma chk_safe fu N E e : (forall j, 1 <= N j) -> chk fu (known orc) true N E e = true -> safe_all fl orc padk pade N E e.
Proof.
  intros HN H. rewrite <- (rn_id e). eapply chk_sound; [|exact H]. constructor; auto.
  - intros i t b Q. injection Q as <-. rewrite rn_id. reflexivity.
  - split; auto.
Qed.
End Sound.
End Check.
