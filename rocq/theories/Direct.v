(** Programs that access arrays by indices of their size only. *)
From Verif Require Import Base Scalar Tensor Types Sym Phi Den Term PhiTerm DenFree SpecPhi Lining LiningFacts TypesFacts Typing DenWf
  Equiv Naive Sizes ClipShift NdOps Yarr Axial AxialFacts AxialOps Codegen IndexOps YOps CodegenSafe SizeClasses Moments MomentFacts SizeSound SizeSafe NdFacts CodegenGet CodegenCtx CodegenCases CodegenAxes CodegenCorrect CodegenSub.

Section Direct.
Context {FO : FloatOps} {EX : Externs}.
Variable fl : flags.
Variable padk : kind -> bool.
Variable pade : bool.
Variable orc : oracle.

(** Variables that are integers of at least 0, with terms that are greater. *)
Definition bounds : Type := list (nat * list phi).
Definition avoids (s : sym) (u : phi) : bool := negb (smem s (fsyms u ++ bsyms u)).
Definition drop (s : sym) (B : bounds) : bounds :=
  map (fun p => (fst p, filter (avoids s) (snd p))) (filter (fun p => negb (sym_eqb (SV (fst p)) s)) B).
Definition below (B : bounds) (c : nat) (u : phi) : bool :=
  existsb (fun p => (fst p =? c) && existsb (phi_eqb u) (snd p)) B.

(** Terms that are equal to a size. *)
Definition sizes_of (size : phi) : list phi :=
  size :: match size with PAssertEq t ops => t :: (if existsb (phi_eqb t) ops then ops else []) | _ => [] end.

Fixpoint nonneg (B : bounds) (e : phi) : bool :=
  match e with
  | PDim _ _ => true
  | PConst a => match adata a with [SI z] => (0 <=? z)%Z | _ => false end
  | PStore (SV x) _ => existsb (fun p => fst p =? x) B
  | PAssertEq t _ => nonneg B t
  | _ => false
  end.

Fixpoint direct (B : bounds) (e : phi) : bool :=
  match e with
  | PConst _ | PStore _ _ => true
  | PLet x b body => direct B b && direct (drop (SV x) B) body
  | PAssertEq t _ | PDim t _ | PFirst t | PSecond t | PUn _ t => direct B t
  | PGet t i =>
      direct B t &&
      match i with
      | PStore (SX j) _ => use_slice_pads fl && use_slice_elision fl && negb (smem (SX j) (free_indices t)) && eq_index orc j (dim_of t 0)
      | PStore (SV c) _ => below B c (dim_of t 0)
      | _ => false
      end
  | PCons a b | PBin _ a b | PConcat a b => direct B a && direct B b
  | PVec i size body => direct B size && nonneg B size && direct (drop (SX i) B) body
  | PFold c size acc init body =>
      direct B size && direct B init && 
      direct ((c, filter (fun u => avoids (SV c) u && avoids (SV acc) u) (sizes_of size))
              :: drop (SV c) (drop (SV acc) B)) body
  | PReduce _ _ _ _ _ => false
  | PWhere c a b => direct B c && direct B a && direct B b
  | PExt _ _ ops => forallb (direct B) ops
  end.

(** ** Soundness *)
Definition holds (B : bounds) (E : env) : Prop := forall c us, In (c, us) B ->
  exists v z, E (SV c) = Some v /\ val_int v = Ok z /\ (0 <= z)%Z /\
    forall u w m, In u us -> den E u = Ok w -> val_int w = Ok m -> (z < m)%Z.

Lemma avoids_den u s E v : avoids s u = true -> den (upd E s v) u = den E u.
Proof.
  intros H. unfold avoids in H. apply negb_true_iff in H. apply den_ext. intros r Hr. apply upd_neq. intros ->.
  apply smem_not_In in H. apply H. apply in_app_iff. apply isfree_syms. exact Hr.
Qed.

Lemma drop_holds B E s v : holds B E -> holds (drop s B) (upd E s v).
Proof.
  intros H c us I. unfold drop in I. apply in_map_iff in I as ([c' us'] & Q & I). cbn [fst snd] in Q. injection Q as <- <-.
  apply filter_In in I as [I N]. cbn [fst] in N. apply negb_true_iff in N.
  destruct (H _ _ I) as (w & z & HE & HZ & P & L). exists w, z. split; [rewrite upd_neq; auto; intros K; rewrite K, sym_eqb_refl in N; discriminate|].
  split; auto. split; auto. intros u w' m Hu D V. apply filter_In in Hu as [Hu F]. rewrite avoids_den in D by exact F. eauto.
Qed.

Lemma below_holds B E c u v w m : holds B E -> below B c u = true -> E (SV c) = Some v -> den E u = Ok w -> val_int w = Ok m -> (0 < m)%Z.
Proof.
  intros H Q HE D V. unfold below in Q. apply existsb_exists in Q as ([c' us] & I & Q). cbn [fst snd] in Q.
  apply andb_true_iff in Q as [Q1 Q2]. apply Nat.eqb_eq in Q1. subst c'. apply existsb_exists in Q2 as (u' & Hu & Q2).
  apply phi_eqb_eq in Q2. subst u'. destruct (H _ _ I) as (v' & z & _ & _ & P & L). specialize (L u w m Hu D V). lia.
Qed.

Lemma sizes_of_eq size E v z u w m : In u (sizes_of size) -> den E size = Ok v -> val_int v = Ok z ->
  den E u = Ok w -> val_int w = Ok m -> m = z.
Proof.
  intros I D V D' V'. destruct I as [<-|I]; [congruence|]. destruct size; try contradiction.
  cbn [den] in D. apply bind_ok in D as (vs & M & D). apply bind_ok in D as (zs & MZ & D). apply bind_ok in D as (x & G & D).
  destruct I as [<-|I]; [congruence|]. destruct (existsb (phi_eqb size) ops) eqn:Q; [|contradiction].
  apply existsb_exists in Q as (t' & Ht & Q). apply phi_eqb_eq in Q. subst t'.
  assert (GE : forall t w m, In t ops -> den E t = Ok w -> val_int w = Ok m -> In m zs).
  { intros t w0 m0 Ht0 D0 V0. apply mapM_Forall2 in M. apply mapM_Forall2 in MZ. clear - Ht0 D0 V0 M MZ. revert zs MZ.
    induction M as [|o w1 ops vs W1 M IH]; intros zs MZ; [contradiction|]. inversion MZ as [|? m1 ? zs' V1 MZ']; subst.
    destruct Ht0 as [->|Ht0]; [left; congruence|right; auto]. }
  assert (Iz := GE _ _ _ Ht D V). assert (Im := GE _ _ _ I D' V').
  unfold guard in G. destruct (all_equal zs) eqn:A; [|discriminate]. unfold all_equal in A. destruct zs as [|z0 zs]; [contradiction|].
  rewrite forallb_forall in A. assert (AA : forall y, In y (z0 :: zs) -> y = z0) by (intros y [<-|Hy]; [auto|apply A, Z.eqb_eq in Hy; auto]).
  rewrite (AA _ Iz), (AA _ Im). reflexivity.
Qed.

Lemma nonneg_holds B E e : forall v z, holds B E -> nonneg B e = true -> den E e = Ok v -> val_int v = Ok z -> (0 <= z)%Z.
Proof.
  induction e using phi_ind'; intros v z HB Q D V; cbn [nonneg] in Q; try discriminate.
  - cbn [den] in D. injection D as <-. destruct (adata a) as [|[|i|] [|]] eqn:A; try discriminate.
    unfold val_int, as_int, as_scalar in V. cbn [as_arr bind] in V. destruct (ashape a) eqn:S; [|discriminate]. cbn [bind] in V.
    unfold get in V. rewrite A, S in V. cbn in V. injection V as <-. apply Z.leb_le. exact Q.
  - destruct s as [x|]; [|discriminate]. apply existsb_exists in Q as ([c us] & I & Q). cbn [fst] in Q. apply Nat.eqb_eq in Q. subst c.
    destruct (HB _ _ I) as (w & m & HE & HZ & P & _). cbn [den] in D. rewrite HE in D. injection D as <-. congruence.
  - cbn [den] in D. apply bind_ok in D as (vs & M & D). apply bind_ok in D as (zs & MZ & D). apply bind_ok in D as (x & G & D). eauto.
  - cbn [den] in D. apply bind_ok in D as (u & M & D). apply bind_ok in D as (n & N & D). injection D as <-. injection V as <-. lia.
Qed.

Lemma direct_safe f : forall B N E e, holds B E -> direct B e = true -> safe_but fl padk pade orc f N E e.
Proof.
  induction f as [|f IH]; intros B N E e H Q; [exact I|].
  destruct e; cbn [direct] in Q; cbn [safe_but]; try discriminate; eauto;
    repeat match goal with Q : _ && _ = true |- _ => apply andb_true_iff in Q as [Q ?] end;
    repeat match goal with |- _ /\ _ => split end; eauto.
  - intros v _. eapply IH; [apply drop_holds; exact H|]. assumption.
  - destruct f; [exact I|]. destruct e2; try discriminate. exact I.
  - intros v n D V. destruct e2 as [|[x|j]| | | | | | | | | | | | | | |]; try discriminate.
    + assert (M : match_index_clipped_shift (PStore (SV x) t) = None) by reflexivity. rewrite M.
      replace (if use_slice_pads fl then None else None) with (@None (nat * clipped)) by (destruct (use_slice_pads fl); reflexivity).
      destruct (dim_of_den _ _ _ _ _ D V) as (w & z & D1 & D2 & <-).
      match goal with K : below _ _ _ = true |- _ => pose proof K as BL end.
      assert (0 < z)%Z; [|lia]. unfold below in BL. apply existsb_exists in BL as ([c us] & I1 & BL). cbn [fst snd] in BL.
      apply andb_true_iff in BL as [B1 B2]. apply existsb_exists in B2 as (u' & Hu & B2). apply phi_eqb_eq in B2. subst u'.
      destruct (H _ _ I1) as (v' & z' & _ & _ & P & L). specialize (L _ _ _ Hu D1 D2). lia.
    + repeat match goal with K : _ && _ = true |- _ => apply andb_true_iff in K as [K ?] end.
      assert (M : match_index_clipped_shift (PStore (SX j) t) = Some (j, (None, None, None))).
      { unfold match_index_clipped_shift, free_indices. cbn [fsyms filter is_index the_index forallb match_clipped_shift is_nil].
        rewrite sym_eqb_refl. reflexivity. }
      rewrite M. repeat match goal with K : _ = true |- _ => rewrite K; clear K | K : negb _ = true |- _ => apply negb_true_iff in K; rewrite K; clear K end.
      exact I.
  - intros v z D V. split; [eapply nonneg_holds; eauto|]. intros k _. eapply IH; [apply drop_holds; exact H|]. assumption.
  - intros v z k w D V Hk _. eapply IH; [|eassumption]. intros c' us [K|K].
    + apply pair_equal_spec in K as [<- <-]. exists (vnat k), (Z.of_nat k). split; [unfold fold_env; apply upd_eq|]. split; [reflexivity|]. split; [lia|].
      intros u w' m Hu D' V'. apply filter_In in Hu as [Hu A]. apply andb_true_iff in A as [A1 A2].
      unfold fold_env in D'. rewrite !avoids_den in D' by assumption. rewrite (sizes_of_eq _ _ _ _ _ _ _ Hu D V D' V'). lia.
    + revert K. apply (drop_holds (drop (SV acc) B) (upd E (SV acc) w) (SV c) (vnat k)). apply drop_holds. exact H.
  - rewrite forallb_forall in Q. rewrite Forall_forall. intros o Ho. eauto.
Qed.

(** Programs without loops: sizes are at least 0. *)
Fixpoint loopless (B : bounds) (e : phi) : bool :=
  match e with
  | PConst _ | PStore _ _ => true
  | PLet x b body => loopless B b && loopless (drop (SV x) B) body
  | PAssertEq t ops => loopless B t && forallb (loopless B) ops
  | PDim t _ | PFirst t | PSecond t | PUn _ t => loopless B t
  | PGet a b | PCons a b | PBin _ a b | PConcat a b => loopless B a && loopless B b
  | PVec i size body => loopless B size && nonneg B size && loopless (drop (SX i) B) body
  | PFold _ _ _ _ _ | PReduce _ _ _ _ _ => false
  | PWhere c a b => loopless B c && loopless B a && loopless B b
  | PExt _ _ ops => forallb (loopless B) ops
  end.

Lemma loopless_runs e : forall B E, holds B E -> loopless B e = true -> loops_run E e.
Proof.
  assert (A : forall ops E B, Forall (fun e => forall B E, holds B E -> loopless B e = true -> loops_run E e) ops ->
    holds B E -> forallb (loopless B) ops = true -> fold_right and True (map (loops_run E) ops)).
  { intros ops E B F HB Q. rewrite forallb_forall in Q. rewrite Forall_forall in F. induction ops as [|o ops IH]; [exact I|].
    cbn [map fold_right]. split; [apply (F o) with B; simpl; auto; apply Q; simpl; auto|]. apply IH; intros x Hx; [apply F|apply Q]; simpl; auto. }
  induction e using phi_ind'; intros B E HB Q; cbn [loopless] in Q; cbn [loops_run]; try discriminate; eauto;
    repeat match goal with Q : _ && _ = true |- _ => apply andb_true_iff in Q as [Q ?] end;
    repeat match goal with |- _ /\ _ => split end; eauto.
  - intros v _. eapply IHe2; [apply drop_holds; exact HB|]. assumption.
  - intros v z D V. eapply nonneg_holds; eauto.
  - eapply IHe2; [apply drop_holds; exact HB|]. assumption.
Qed.
End Direct.

(** The flags without the lowerings of loops. *)
Definition loops_stay (fl : flags) : flags := mkFlags (use_takes fl) (use_slice_pads fl) (use_slice_elision fl) false false (strict fl).

Section Loopless.
Context {FO : FloatOps} {EX : Externs}.
Variable fl : flags.
Variable orc : oracle.

Ltac rstep :=
  match goal with
  | |- ref ?x ?x => apply ref_refl
  | H : ref ?x ?y |- ref ?x ?y => exact H
  | |- ref (bind _ _) (bind _ _) => apply ref_bind; [|intros ?]
  | |- ref (if ?b then _ else _) (if ?b then _ else _) => destruct b
  | |- ref (match ?x with _ => _ end) (match ?x with _ => _ end) => destruct x
  end.

(** Programs without loops are compiled in the same way. *)
Lemma loopless_go fuel : forall B B' idxs vax e, direct fl orc B e = true -> loopless B' e = true ->
  ref (go fl orc fuel idxs vax e) (go (loops_stay fl) orc fuel idxs vax e).
Proof.
  induction fuel as [|fuel IH]; intros B B' idxs vax e D L; [apply ref_refl|].
  destruct e; cbn [direct] in D; cbn [loopless] in L; try discriminate;
    repeat match goal with Q : _ && _ = true |- _ => apply andb_true_iff in Q as [Q ?] end;
    cbn [go]; cbn [strict loops_stay]; try (repeat first [rstep | eapply IH; eassumption]; fail).
  - unfold transform_get. cbn [use_takes use_slice_pads use_slice_elision loops_stay].
    assert (T : ref (go fl orc fuel idxs vax e1) (go (loops_stay fl) orc fuel idxs vax e1)) by (eapply IH; eassumption).
    assert (T2 : ref (go fl orc fuel idxs vax e2) (go (loops_stay fl) orc fuel idxs vax e2)).
    { destruct e2; try discriminate. destruct fuel; [apply ref_refl|]. cbn [go]. apply ref_refl. }
    apply ref_bind; [exact T|]. intros target. apply ref_bind; [apply ref_refl|]. intros rank.
    assert (OT : forall (k : axial -> res axial), ref (let* item := go fl orc fuel idxs vax e2 in k item) (let* item := go (loops_stay fl) orc fuel idxs vax e2 in k item))
      by (intros k; apply ref_bind; [exact T2|intros ?; apply ref_refl]).
    destruct e2 as [|[x|j]| | | | | | | | | | | | | | |]; try discriminate.
    + assert (M : match_index_clipped_shift (PStore (SV x) t) = None) by reflexivity. rewrite M. destruct (use_slice_pads fl); apply OT.
    + repeat match goal with K : _ && _ = true |- _ => apply andb_true_iff in K as [K ?] end.
      assert (M : match_index_clipped_shift (PStore (SX j) t) = Some (j, (None, None, None))).
      { unfold match_index_clipped_shift, free_indices. cbn [fsyms filter is_index the_index forallb match_clipped_shift is_nil].
        rewrite sym_eqb_refl. reflexivity. }
      rewrite M. repeat match goal with K : _ = true |- _ => rewrite K; clear K | K : negb _ = true |- _ => apply negb_true_iff in K; rewrite K; clear K end.
      apply ref_refl.
  - rewrite forallb_forall in D, L. apply ref_bind; [|intros ?; apply ref_refl]. apply ref_mapM. intros o Ho. eapply IH; eauto.
Qed.
End Loopless.
