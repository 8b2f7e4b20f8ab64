(** Facts about signatures (C10) and the struct-of-arrays types (C13). *)
From Verif Require Import Base Scalar Tensor Types Phi.

(** * Signatures *)

(** [instance sg cs ks k]: replacing letters by kinds consistently, within the
    constraints, turns the signature into [ks -> k]. *)
Definition sig_kind (sigma : nat -> kind) (s : sig_arg) : kind :=
  match s with SLetter v => sigma v | SKind k => k end.

Definition respects (sigma : nat -> kind) (cs : constraints) (args : list sig_arg) : Prop :=
  forall v ks, In (SLetter v) args -> assoc v cs = Some ks -> In (sigma v) ks.

Definition instance (sg : signature) (cs : constraints) (ks : list kind) (k : kind) : Prop :=
  exists sigma, respects sigma cs (fst sg) /\
    ks = map (sig_kind sigma) (fst sg) /\ k = sig_kind sigma (snd sg).

Lemma kind_mem_In k l : kind_mem k l = true <-> In k l.
Proof.
  unfold kind_mem. rewrite existsb_exists. split.
  - intros (x & Hx & E). apply kind_eqb_eq in E. subst; auto.
  - intros H. exists k. split; auto. apply kind_eqb_refl.
Qed.

Definition agrees (sigma : nat -> kind) (tv : list (nat * kind)) : Prop :=
  forall v k, assoc v tv = Some k -> sigma v = k.

Lemma resolve_args_complete sigma cs args : forall tv,
  respects sigma cs args -> agrees sigma tv ->
  exists tv', resolve_args (map (fun s => TScalar (sig_kind sigma s)) args) args cs tv = Ok tv' /\
    agrees sigma tv' /\
    (forall v, In (SLetter v) args \/ assoc v tv <> None -> assoc v tv' <> None).
Proof.
  induction args as [|s args IH]; intros tv R A; simpl.
  - exists tv. split; [reflexivity|]. split; auto. intros v [[]|H]; auto.
  - assert (R' : respects sigma cs args).
    { intros v ks H. apply R. right; auto. }
    destruct s as [v|k]; simpl.
    + assert (E1 : match assoc v cs with Some ks => kind_mem (sigma v) ks | None => true end = true).
      { destruct (assoc v cs) eqn:E; auto. apply kind_mem_In. apply (R v); simpl; auto. }
      assert (E2 : match assoc v tv with Some k' => kind_eqb k' (sigma v) | None => true end = true).
      { destruct (assoc v tv) eqn:E; auto. apply kind_eqb_eq. symmetry. apply A; auto. }
      rewrite E1, E2. simpl.
      destruct (IH ((v, sigma v) :: tv) R') as (tv' & H1 & H2 & H3).
      { intros w k. simpl. destruct (w =? v) eqn:Ew; [|apply A].
        apply Nat.eqb_eq in Ew. subst. congruence. }
      exists tv'. split; auto. split; auto. intros w Hw. apply H3. simpl.
      destruct (w =? v) eqn:Ew; [right; discriminate|].
      destruct Hw as [[Hw|Hw]|Hw]; auto. injection Hw as <-. rewrite Nat.eqb_refl in Ew. discriminate.
    + rewrite kind_eqb_refl. simpl.
      destruct (IH tv R' A) as (tv' & H1 & H2 & H3). exists tv'. split; auto. split; auto.
      intros w [[Hw|Hw]|Hw]; [discriminate|apply H3; auto|apply H3; auto].
Qed.

Lemma resolve_args_sound cs args : forall types tv tv',
  length types = length args -> resolve_args types args cs tv = Ok tv' ->
  (forall v k, assoc v tv = Some k -> assoc v tv' = Some k) /\
  (forall v, In (SLetter v) args -> exists k, assoc v tv' = Some k /\
       (forall ks, assoc v cs = Some ks -> In k ks)) /\
  Forall2 (fun t s => match s with
                      | SLetter v => exists k, t = TScalar k /\ assoc v tv' = Some k
                      | SKind k => t = TScalar k
                      end) types args.
Proof.
  induction args as [|s args IH]; intros types tv tv' L H; destruct types as [|t types]; try discriminate L.
  - simpl in H. injection H as <-. split; auto. split; [intros v []|constructor].
  - simpl in L. injection L as L. simpl in H. destruct t as [k|e|a b]; try discriminate.
    destruct s as [v|k'].
    + inv_bind. destruct (IH _ _ _ L Hk0) as (K1 & K2 & K3).
      assert (Hv : assoc v tv' = Some k).
      { apply K1. simpl. rewrite Nat.eqb_refl. reflexivity. }
      split; [|split].
      * intros w k0 Hw. apply K1. simpl. destruct (w =? v) eqn:Ew; auto.
        apply Nat.eqb_eq in Ew. subst w. rewrite Hw in Hb0. apply kind_eqb_eq in Hb0. congruence.
      * intros w [Hw|Hw]; auto. injection Hw as <-. exists k. split; auto.
        intros ks Hks. rewrite Hks in Hb. apply kind_mem_In; auto.
      * constructor; eauto.
    + inv_bind. destruct (IH _ _ _ L Hk) as (K1 & K2 & K3).
      apply kind_eqb_eq in Hb. subst k'. split; [auto|split].
      * intros w [Hw|Hw]; [discriminate|auto].
      * constructor; auto.
Qed.

(** Every letter of the result occurs among the arguments. *)
Definition result_bound (sg : signature) : Prop :=
  match snd sg with SLetter v => In (SLetter v) (fst sg) | SKind _ => True end.

Lemma resolve_exact sg cs types t :
  length types = length (fst sg) -> result_bound sg ->
  (resolve_scalar_signature types sg cs = Ok t <->
   exists ks k, types = map TScalar ks /\ t = TScalar k /\ instance sg cs ks k).
Proof.
  destruct sg as [args r]. unfold result_bound. simpl. intros L RB. split.
  - intros H. unfold resolve_scalar_signature in H. inv_bind.
    destruct (resolve_args_sound _ _ _ _ _ L Hb) as (_ & K2 & K3).
    set (sigma v := match assoc v a with Some k => k | None => KInt end).
    assert (Hr : t = TScalar (sig_kind sigma r)).
    { destruct r as [v|k]; simpl.
      - inv_bind. unfold sigma. rewrite Hb0. reflexivity.
      - injection Hk as <-. reflexivity. }
    exists (map (sig_kind sigma) args), (sig_kind sigma r). split; [|split; auto].
    + clear - K3. induction K3 as [|t s types args Hts K3 IH]; simpl; auto. f_equal; auto.
      destruct s as [v|k]; simpl; auto. destruct Hts as (k & -> & E). unfold sigma. rewrite E. reflexivity.
    + exists sigma. split; [|split]; auto. intros v ks Hv Hks.
      destruct (K2 v Hv) as (k & E & HK). unfold sigma. rewrite E. auto.
  - intros (ks & k & -> & -> & sigma & R & -> & ->). unfold resolve_scalar_signature. simpl in *.
    rewrite map_map.
    destruct (resolve_args_complete sigma cs args [] R) as (tv & H1 & H2 & H3).
    { intros v k H. discriminate H. }
    rewrite H1. simpl. destruct r as [v|k]; simpl in *; auto.
    destruct (assoc v tv) eqn:E; simpl.
    + f_equal. f_equal. symmetry. apply H2; auto.
    + exfalso. apply (H3 v); auto.
Qed.

Lemma sig_un_bound o : result_bound (fst (sig_un o)).
Proof. destruct o; simpl; unfold result_bound; simpl; auto. Qed.
Lemma sig_bin_bound o : result_bound (fst (sig_bin o)).
Proof. destruct o; simpl; unfold result_bound; simpl; auto. Qed.
Lemma sig_where_bound : result_bound (fst sig_where).
Proof. unfold result_bound; simpl; auto. Qed.

(** The table entries agree with what the element operations accept. *)
Lemma resolve_un o k :
  resolve_scalar_signature [TScalar k] (fst (sig_un o)) (snd (sig_un o)) =
  match kind_un o k with Some k' => Ok (TScalar k') | None => Err EType end.
Proof. destruct o, k; reflexivity. Qed.
Lemma resolve_bin o k1 k2 :
  resolve_scalar_signature [TScalar k1; TScalar k2] (fst (sig_bin o)) (snd (sig_bin o)) =
  match kind_bin o k1 k2 with Some k' => Ok (TScalar k') | None => Err EType end.
Proof. destruct o, k1, k2; reflexivity. Qed.
Lemma resolve_where k1 k2 k3 :
  resolve_scalar_signature [TScalar k1; TScalar k2; TScalar k3] (fst sig_where) (snd sig_where) =
  match kind_where k1 k2 k3 with Some k' => Ok (TScalar k') | None => Err EType end.
Proof. destruct k1, k2, k3; reflexivity. Qed.

Lemma resolve_un_inv o t r :
  resolve_scalar_signature [t] (fst (sig_un o)) (snd (sig_un o)) = Ok r ->
  exists k k', t = TScalar k /\ r = TScalar k' /\ kind_un o k = Some k'.
Proof.
  intros H. destruct t as [k|e|a b]; try (destruct o; discriminate H).
  rewrite resolve_un in H. destruct (kind_un o k) eqn:E; inv_bind; eauto.
Qed.
Lemma resolve_bin_inv o t1 t2 r :
  resolve_scalar_signature [t1; t2] (fst (sig_bin o)) (snd (sig_bin o)) = Ok r ->
  exists k1 k2 k', t1 = TScalar k1 /\ t2 = TScalar k2 /\ r = TScalar k' /\ kind_bin o k1 k2 = Some k'.
Proof.
  intros H.
  destruct t1 as [k1|e|a b]; try (destruct o; discriminate H).
  destruct t2 as [k2|e|a b]; try (destruct o, k1; discriminate H).
  rewrite resolve_bin in H. destruct (kind_bin o k1 k2) eqn:E; [|discriminate]. inv_bind; eauto 10.
Qed.
Lemma resolve_where_inv t1 t2 t3 r :
  resolve_scalar_signature [t1; t2; t3] (fst sig_where) (snd sig_where) = Ok r ->
  exists k1 k2 k3 k', t1 = TScalar k1 /\ t2 = TScalar k2 /\ t3 = TScalar k3 /\
    r = TScalar k' /\ kind_where k1 k2 k3 = Some k'.
Proof.
  intros H.
  destruct t1 as [k1|e|a b]; try discriminate H.
  destruct t2 as [k2|e|a b]; try (destruct k1; discriminate H).
  destruct t3 as [k3|e|a b]; try (destruct k1, k2; discriminate H).
  rewrite resolve_where in H. destruct (kind_where k1 k2 k3) eqn:E; [|discriminate].
  inv_bind; eauto 10.
Qed.

(** * Struct-of-arrays types *)

(** ein/midend/structs.py:28-41 [_soa_transform_type].  [soa_aux true e] is the
    conversion of [Vector(e)], [soa_aux false t] the conversion of [t]; this
    makes the recursion on [Vector(first)] structural. *)
Fixpoint soa_aux (under_vec : bool) (t : ty) : ty :=
  match t with
  | TPair a b => TPair (soa_aux under_vec a) (soa_aux under_vec b)
  | TVec e => if under_vec then TVec (soa_aux true e) else soa_aux true e
  | TScalar k => if under_vec then TVec (TScalar k) else TScalar k
  end.

Definition soa_ty (t : ty) : ty := soa_aux false t.

(** The equations of the source. *)
Lemma soa_ty_eq t :
  soa_ty t = match t with
             | TVec (TPair a b) => TPair (soa_ty (TVec a)) (soa_ty (TVec b))
             | TVec e => TVec (soa_ty e)
             | TPair a b => TPair (soa_ty a) (soa_ty b)
             | TScalar _ => t
             end.
Proof. destruct t as [k|[k|e|a b]|a b]; reflexivity. Qed.

(** The leaf arrays a type demands, in order: scalars with the number of
    vectors above them. *)
Fixpoint leaves (r : nat) (t : ty) : pty :=
  match t with
  | TScalar k => [(r, k)]
  | TVec e => leaves (S r) e
  | TPair a b => leaves r a ++ leaves r b
  end.

Fixpoint has_pair (t : ty) : bool :=
  match t with
  | TScalar _ => false
  | TVec e => has_pair e
  | TPair _ _ => true
  end.

(** No record under a vector. *)
Fixpoint flat (t : ty) : bool :=
  match t with
  | TScalar _ => true
  | TVec e => negb (has_pair e)
  | TPair a b => flat a && flat b
  end.

(** No record under two or more vectors. *)
Fixpoint shallow (t : ty) : bool :=
  match t with
  | TScalar _ => true
  | TVec e => (fix go e := match e with
                           | TScalar _ => true
                           | TVec e => negb (has_pair e)
                           | TPair a b => go a && go b
                           end) e
  | TPair a b => shallow a && shallow b
  end.

Lemma leaves_soa_aux t : forall r,
  leaves r (soa_aux true t) = leaves (S r) t /\ leaves r (soa_aux false t) = leaves r t.
Proof.
  induction t as [k|e IH|a IHa b IHb]; intros r; simpl; auto.
  - split; [apply IH|]. destruct (IH r) as [H _]. auto.
  - destruct (IHa r) as [A1 A2], (IHb r) as [B1 B2]. rewrite A1, A2, B1, B2. auto.
Qed.

Lemma leaves_soa t r : leaves r (soa_ty t) = leaves r t.
Proof. apply leaves_soa_aux. Qed.

Lemma leaves_nopair t : has_pair t = false -> exists n k, forall r, leaves r t = [(n + r, k)].
Proof.
  induction t as [k|e IH|a _ b _]; simpl; intros H; [..|discriminate].
  - exists 0, k. auto.
  - destruct (IH H) as (n & k & E). exists (S n), k. intros r. rewrite E. f_equal. f_equal. lia.
Qed.

Lemma primitive_leaves t p : primitive_type t = Ok p -> p = leaves 0 t.
Proof.
  assert (G : forall t p, primitive_type t = Ok p ->
    forall r, leaves r t = map (fun x => (fst x + r, snd x)) p).
  { clear. induction t as [k|e IH|a IHa b IHb]; simpl; intros p H r; inv_bind.
    - auto.
    - specialize (IH _ Hb (S r)). rewrite IH. destruct a as [|[n k] [|y a]]; simpl in Hb0; try discriminate.
      injection Hb0 as <-. simpl. f_equal. f_equal. lia.
    - rewrite (IHa _ Hb r), (IHb _ Hb0 r), map_app. reflexivity. }
  intros H. rewrite (G _ _ H). symmetry.
  rewrite <- (map_id p) at 2. apply map_ext. intros [n k]; simpl. f_equal. lia.
Qed.

Lemma primitive_flat t : flat t = true -> primitive_type t = Ok (leaves 0 t).
Proof.
  induction t as [k|e IH|a IHa b IHb]; simpl; intros H; auto.
  - apply negb_true_iff in H.
    assert (G : primitive_type e = Ok (leaves 0 e)).
    { apply IH. destruct e; simpl in *; try rewrite H; auto; discriminate. }
    rewrite G. simpl. destruct (leaves_nopair e H) as (n & k & E).
    rewrite (E 0), (E 1). simpl. replace (n + 1) with (S (n + 0)) by lia. reflexivity.
  - apply andb_true_iff in H as [H1 H2]. rewrite IHa, IHb by auto. reflexivity.
Qed.

Lemma soa_nopair t : has_pair t = false -> soa_aux true t = TVec t /\ soa_aux false t = t.
Proof.
  induction t as [k|e IH|a _ b _]; simpl; intros H; [auto| |discriminate].
  destruct (IH H) as [H1 H2]. rewrite H1. auto.
Qed.

Lemma soa_flat_id t : flat t = true -> soa_ty t = t.
Proof.
  unfold soa_ty. induction t as [k|e IH|a IHa b IHb]; simpl; intros H; auto.
  - apply negb_true_iff in H. apply soa_nopair; auto.
  - apply andb_true_iff in H as [H1 H2]. rewrite IHa, IHb; auto.
Qed.

Lemma soa_shallow_flat t : shallow t = true -> flat (soa_ty t) = true.
Proof.
  unfold soa_ty. induction t as [k|e IH|a IHa b IHb]; simpl; intros H; auto.
  - clear IH. induction e as [k|e _|a IHa b IHb]; simpl in *; auto.
    + apply negb_true_iff in H. destruct (soa_nopair e H) as [-> _]. simpl. rewrite H. auto.
    + apply andb_true_iff in H as [H1 H2]. apply andb_true_iff; auto.
  - apply andb_true_iff in H as [H1 H2]. apply andb_true_iff; auto.
Qed.

Lemma soa_primitive t : shallow t = true -> primitive_type (soa_ty t) = Ok (leaves 0 t).
Proof.
  intros H. rewrite primitive_flat by (apply soa_shallow_flat; auto). rewrite leaves_soa. reflexivity.
Qed.

Lemma soa_primitive_any t p : primitive_type (soa_ty t) = Ok p -> p = leaves 0 t.
Proof. intros H. apply primitive_leaves in H. rewrite leaves_soa in H. auto. Qed.

(** [PrimitiveType.type] inverts [primitive_type] up to re-association of pairs. *)
Lemma leaves_ndarray n k r : leaves r (ndarray_type n k) = [(n + r, k)].
Proof. revert r. induction n; intros r; simpl; auto. rewrite IHn. f_equal. f_equal. lia. Qed.

Lemma pty_type_leaves p t : pty_type p = Ok t -> leaves 0 t = p /\ flat t = true.
Proof.
  revert t. induction p as [|x p IH]; intros t H; [discriminate|].
  assert (F : forall n k, flat (ndarray_type n k) = true).
  { assert (N : forall n k, has_pair (ndarray_type n k) = false) by (induction n; simpl; auto).
    destruct n; simpl; auto. intros k. rewrite N. auto. }
  assert (L : forall x, leaves 0 (pat_type x) = [x]).
  { intros [n k]. unfold pat_type. simpl. rewrite leaves_ndarray, Nat.add_0_r. reflexivity. }
  destruct p as [|y p].
  - simpl in H. injection H as <-. split; [apply L|apply F].
  - change (pty_type (x :: y :: p)) with (let* t := pty_type (y :: p) in Ok (TPair (pat_type x) t)) in H.
    inv_bind. destruct (IH _ Hb) as [H1 H2]. simpl. rewrite H1, H2, L. unfold pat_type. rewrite F. auto.
Qed.
