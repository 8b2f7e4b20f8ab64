(** ein/codegen/array_indexing.py:180-262: recognition of clipped shifts. *)
From Verif Require Import Base Scalar Tensor Types Phi Den.

Section ClipShift.
Context {FO : FloatOps} {EX : Externs}.

(** array_indexing.py:180 [ClippedShift]: (shift, low, high) *)
Definition clipped : Type := (option phi * option phi * option phi)%type.

Definition is_nil {A} (l : list A) : bool := match l with [] => true | _ => false end.

(** array_indexing.py:17-21 [_first_opt] *)
Definition first_opt {A} (x y : option A) : option A :=
  match x with Some _ => x | None => y end.

(** array_indexing.py:227-237 [_clip_shift_add]; [t] is the result of the
    recursive call on [shifted]. *)
Definition clip_shift_add (t : option clipped) (other : phi) : option clipped :=
  if negb (is_nil (free_indices other)) then None
  else match t with
       | Some (d, None, None) =>
           Some (Some (match d with Some d => PBin BAdd d other | None => other end), None, None)
       | _ => None
       end.

(** array_indexing.py:240-250 [_clip_shift_min] *)
Definition clip_shift_min (t : option clipped) (other : phi) : option clipped :=
  if negb (is_nil (free_indices other)) then None
  else match t with
       | Some (d, lo, hi) =>
           Some (d, lo, Some (match hi with Some hi => PBin BMin hi other | None => other end))
       | None => None
       end.

(** array_indexing.py:253-262 [_clip_shift_max] *)
Definition clip_shift_max (t : option clipped) (other : phi) : option clipped :=
  if negb (is_nil (free_indices other)) then None
  else match t with
       | Some (d, lo, hi) =>
           Some (d, Some (match lo with Some lo => PBin BMax lo other | None => other end),
                 option_map (fun hi => PBin BMax hi other) hi)
       | None => None
       end.

(** The recursive call on [Negate(second)] (array_indexing.py:207-212): a
    negation matches no case, so it is recognised only if it is closed (198). *)
Definition match_negated (b : phi) : option clipped :=
  if is_nil (fsyms (PUn UNeg b)) then Some (None, None, None) else None.

(** array_indexing.py:194-224 [match_clipped_shift] *)
Fixpoint match_clipped_shift (e : phi) (s : sym) : option clipped :=
  if is_nil (fsyms e) then Some (None, None, None)
  else match e with
       | PStore s' _ => if sym_eqb s s' then Some (None, None, None) else None
       | PBin BAdd a b =>
           first_opt (clip_shift_add (match_clipped_shift a s) b)
                     (clip_shift_add (match_clipped_shift b s) a)
       | PBin BSub a b =>
           first_opt (clip_shift_add (match_clipped_shift a s) (PUn UNeg b))
                     (clip_shift_add (match_negated b) a)
       | PBin BMin a b =>
           first_opt (clip_shift_min (match_clipped_shift a s) b)
                     (clip_shift_min (match_clipped_shift b s) a)
       | PBin BMax a b =>
           first_opt (clip_shift_max (match_clipped_shift a s) b)
                     (clip_shift_max (match_clipped_shift b s) a)
       | _ => None
       end.

(** [free_indices] is a set in the code: one element, possibly occurring
    several times. *)
Definition the_index (l : list sym) : option nat :=
  match l with
  | SX i :: rest => if forallb (sym_eqb (SX i)) rest then Some i else None
  | _ => None
  end.

(** array_indexing.py:183-190 [match_index_clipped_shift] *)
Definition match_index_clipped_shift (e : phi) : option (nat * clipped) :=
  match the_index (free_indices e) with
  | Some i => option_map (pair i) (match_clipped_shift e (SX i))
  | None => None
  end.

(** array_indexing.py:265-270 [match_shift] (used for nothing but exported) *)
Definition match_shift (e : phi) (s : sym) : option phi :=
  match match_clipped_shift e s with
  | Some (d, None, None) => d
  | _ => None
  end.

(** * Soundness *)

(** The integer an expression evaluates to, as an element kind int. *)
Definition den_int (E : env) (e : phi) (z : Z) : Prop :=
  exists v, den E e = Ok v /\ val_scalar v = Ok (SI z).

Lemma den_int_det E e z1 z2 : den_int E e z1 -> den_int E e z2 -> z1 = z2.
Proof. intros (v & H1 & H2) (w & H3 & H4). congruence. Qed.

(** Optional parts: an absent shift is 0, an absent bound does not bound. *)
Definition den_opt (E : env) (o : option phi) (z : option Z) : Prop :=
  match o, z with
  | None, None => True
  | Some e, Some z => den_int E e z
  | _, _ => False
  end.

Definition clip_form (k : Z) (d lo hi : option Z) : Z :=
  let x := (k + match d with Some d => d | None => 0 end)%Z in
  let y := match lo with Some l => Z.max x l | None => x end in
  match hi with Some h => Z.min y h | None => y end.

Lemma val_scalar_vs s : val_scalar (vscalar s) = Ok s.
Proof. destruct s; reflexivity. Qed.

Lemma den_int_bin E o a b z :
  den_int E (PBin o a b) z ->
  match o with BAdd | BSub | BMin | BMax => True | _ => False end ->
  exists x y, den_int E a x /\ den_int E b y /\ sem_bin o (SI x) (SI y) = Some (SI z).
Proof.
  intros (v & H & Hv) Ho. simpl in H. inv_bind. unfold lift2 in *. inv_bind.
  rewrite val_scalar_vs in Hv. injection Hv as ->.
  unfold den_int.
  destruct o; try tauto;
  destruct a2 as [x|x|x], a3 as [y|y|y]; simpl in *; try discriminate;
    exists x, y; repeat split; eauto.
Qed.

Lemma den_int_bin_intro E o a b x y z :
  den_int E a x -> den_int E b y -> sem_bin o (SI x) (SI y) = Some (SI z) ->
  den_int E (PBin o a b) z.
Proof.
  intros (v & H1 & H2) (w & H3 & H4) H5. exists (vscalar (SI z)). split.
  - simpl. rewrite H1, H3. simpl. unfold lift2. rewrite H2, H4. simpl. simpl in H5. rewrite H5. reflexivity.
  - apply as_scalar_ascalar.
Qed.

Lemma den_int_neg E b z : den_int E (PUn UNeg b) z <-> den_int E b (- z)%Z.
Proof.
  split.
  - intros (v & H & Hv). simpl in H. inv_bind. unfold lift1 in *. inv_bind.
    rewrite val_scalar_vs in Hv. injection Hv as ->.
    destruct a0; simpl in *; try discriminate. injection Hb1 as <-.
    exists a. split; auto. rewrite Hb0. f_equal. f_equal. lia.
  - intros (v & H & Hv). exists (vscalar (SI z)). split; [|apply as_scalar_ascalar].
    simpl. rewrite H. simpl. unfold lift1. rewrite Hv. simpl. rewrite Z.opp_involutive. reflexivity.
Qed.

(** No part mentions an index. *)
Definition no_index (o : option phi) : Prop :=
  match o with Some e => free_indices e = [] | None => True end.

Lemma is_nil_true {A} (l : list A) : is_nil l = true <-> l = [].
Proof. destruct l; simpl; split; congruence. Qed.

Lemma fi_app l1 l2 : filter is_index (l1 ++ l2) = filter is_index l1 ++ filter is_index l2.
Proof. apply filter_app. Qed.

Definition clip_sound (e : phi) (i : nat) (t : clipped) : Prop :=
  let '(d, lo, hi) := t in
  no_index d /\ no_index lo /\ no_index hi /\
  forall E k, E (SX i) = Some (vint k) ->
  forall z, den_int E e z <->
    exists zd zl zh, den_opt E d zd /\ den_opt E lo zl /\ den_opt E hi zh /\
                     z = clip_form k zd zl zh.

Lemma fi_bin o (a b : phi) : free_indices (PBin o a b) = free_indices a ++ free_indices b.
Proof. unfold free_indices. simpl. apply fi_app. Qed.

Lemma add_sound e a b i d :
  (forall E z, den_int E e z <-> exists x y, den_int E a x /\ den_int E b y /\ z = (x + y)%Z) ->
  free_indices b = [] -> clip_sound a i (d, None, None) ->
  clip_sound e i (Some (match d with Some d => PBin BAdd d b | None => b end), None, None).
Proof.
  intros He Hb (N1 & N2 & N3 & H). split; [|split; [|split]]; simpl; auto.
  { destruct d; auto. rewrite fi_bin, Hb. simpl in N1. rewrite N1. reflexivity. }
  intros E k Hk z. specialize (H E k Hk). split.
  - intros Hz. apply He in Hz as (x & y & Hx & Hy & ->). apply H in Hx as (zd & zl & zh & Hd & Hl & Hh & ->).
    destruct zl, zh; try contradiction.
    exists (Some (match zd with Some d => d + y | None => y end)%Z), None, None.
    repeat split; auto.
    + destruct d, zd; simpl in *; try contradiction; auto. eapply den_int_bin_intro; eauto.
    + unfold clip_form. destruct zd; lia.
  - intros (zd & zl & zh & Hd & Hl & Hh & ->). destruct zd as [zd|], zl, zh; try contradiction.
    apply He. destruct d as [d|].
    + apply den_int_bin in Hd as (x & y & Hx & Hy & Hxy); auto. injection Hxy as <-.
      exists (k + x)%Z, y. repeat split; auto.
      * apply H. exists (Some x), None, None. repeat split; auto.
      * unfold clip_form. lia.
    + exists k, zd. repeat split; auto. apply H. exists None, None, None. repeat split; auto.
      unfold clip_form. lia.
Qed.

Lemma min_sound e a b i t t' :
  (forall E z, den_int E e z <-> exists x y, den_int E a x /\ den_int E b y /\ z = Z.min x y) ->
  clip_sound a i t -> clip_shift_min (Some t) b = Some t' -> clip_sound e i t'.
Proof.
  intros He Ha Ht. unfold clip_shift_min in Ht.
  destruct (is_nil (free_indices b)) eqn:Hb; simpl in Ht; [|discriminate].
  apply is_nil_true in Hb. destruct t as [[d lo] hi]. destruct Ha as (N1 & N2 & N3 & H).
  injection Ht as <-. split; [|split; [|split]]; simpl; auto.
  { destruct hi; auto. rewrite fi_bin, Hb. simpl in N3. rewrite N3. reflexivity. }
  intros E k Hk z. specialize (H E k Hk). split.
  - intros Hz. apply He in Hz as (x & y & Hx & Hy & ->). apply H in Hx as (zd & zl & zh & Hd & Hl & Hh & ->).
    exists zd, zl, (Some (match zh with Some h => Z.min h y | None => y end)%Z).
    repeat split; auto.
    + destruct hi, zh; simpl in *; try contradiction; auto. eapply den_int_bin_intro; eauto.
    + unfold clip_form. destruct zd, zl, zh; lia.
  - intros (zd & zl & zh & Hd & Hl & Hh & ->). destruct zh as [zh|]; try contradiction.
    apply He. destruct hi as [hi|].
    + apply den_int_bin in Hh as (x & y & Hx & Hy & Hxy); auto. injection Hxy as <-.
      exists (clip_form k zd zl (Some x)), y. repeat split; auto.
      * apply H. exists zd, zl, (Some x). repeat split; auto.
      * unfold clip_form. destruct zd, zl; lia.
    + exists (clip_form k zd zl None), zh. repeat split; auto.
      apply H. exists zd, zl, None. repeat split; auto.
Qed.

Lemma max_sound e a b i t t' :
  (forall E z, den_int E e z <-> exists x y, den_int E a x /\ den_int E b y /\ z = Z.max x y) ->
  clip_sound a i t -> clip_shift_max (Some t) b = Some t' -> clip_sound e i t'.
Proof.
  intros He Ha Ht. unfold clip_shift_max in Ht.
  destruct (is_nil (free_indices b)) eqn:Hb; simpl in Ht; [|discriminate].
  apply is_nil_true in Hb. destruct t as [[d lo] hi]. destruct Ha as (N1 & N2 & N3 & H).
  injection Ht as <-. split; [|split; [|split]]; simpl; auto.
  { destruct lo; auto. rewrite fi_bin, Hb. simpl in N2. rewrite N2. reflexivity. }
  { destruct hi; simpl; auto. rewrite fi_bin, Hb. simpl in N3. rewrite N3. reflexivity. }
  intros E k Hk z. specialize (H E k Hk). split.
  - intros Hz. apply He in Hz as (x & y & Hx & Hy & ->). apply H in Hx as (zd & zl & zh & Hd & Hl & Hh & ->).
    exists zd, (Some (match zl with Some l => Z.max l y | None => y end)%Z),
      (option_map (fun h => Z.max h y) zh).
    repeat split; auto.
    + destruct lo, zl; simpl in *; try contradiction; auto. eapply den_int_bin_intro; eauto.
    + destruct hi, zh; simpl in *; try contradiction; auto. eapply den_int_bin_intro; eauto.
    + unfold clip_form. destruct zd, zl, zh; simpl; lia.
  - intros (zd & zl & zh & Hd & Hl & Hh & ->). destruct zl as [zl|]; try contradiction.
    apply He.
    assert (exists l' y, den_opt E lo l' /\ den_int E b y /\
              zl = match l' with Some l => Z.max l y | None => y end) as (l' & y & Hl' & Hy & ->).
    { destruct lo as [lo|].
      - apply den_int_bin in Hl as (x & y & Hx & Hy & Hxy); auto. injection Hxy as <-.
        exists (Some x), y. auto.
      - exists None, zl. simpl. auto. }
    assert (exists h', den_opt E hi h' /\ zh = option_map (fun h => Z.max h y) h') as (h' & Hh' & ->).
    { destruct hi as [hi|], zh as [zh|]; simpl in Hh; try contradiction.
      - apply den_int_bin in Hh as (x & y' & Hx & Hy' & Hxy); auto. injection Hxy as <-.
        rewrite (den_int_det _ _ _ _ Hy' Hy). exists (Some x). auto.
      - exists None. simpl; auto. }
    exists (clip_form k zd l' h'), y. repeat split; auto.
    + apply H. exists zd, l', h'. repeat split; auto.
    + unfold clip_form. destruct zd, l', h'; simpl; lia.
Qed.

Lemma swap_bin {A B} (P Q : A -> Prop) (f : A -> A -> B) (z : B) :
  (forall x y, f x y = f y x) ->
  (exists x y, P x /\ Q y /\ z = f x y) <-> (exists x y, Q x /\ P y /\ z = f x y).
Proof.
  intros C. split; intros (x & y & H1 & H2 & ->); exists y, x; repeat split; auto.
Qed.

Lemma bin_iff E o a b f z :
  match o with BAdd | BSub | BMin | BMax => True | _ => False end ->
  (forall x y, sem_bin o (SI x) (SI y) = Some (SI (f x y))) ->
  (den_int E (PBin o a b) z <-> exists x y, den_int E a x /\ den_int E b y /\ z = f x y).
Proof.
  intros Ho Hf. split.
  - intros H. apply den_int_bin in H as (x & y & Hx & Hy & Hxy); auto.
    exists x, y. repeat split; auto. rewrite Hf in Hxy. congruence.
  - intros (x & y & Hx & Hy & ->). eapply den_int_bin_intro; eauto.
Qed.

Lemma clip_add_inv t b t' : clip_shift_add t b = Some t' ->
  free_indices b = [] /\ exists d, t = Some (d, None, None) /\
  t' = (Some (match d with Some d => PBin BAdd d b | None => b end), None, None).
Proof.
  unfold clip_shift_add. destruct (is_nil (free_indices b)) eqn:E; simpl; [|discriminate].
  apply is_nil_true in E. destruct t as [[[d [lo|]] [hi|]]|]; try discriminate.
  intros H. injection H as <-. eauto.
Qed.

Lemma match_clipped_shift_sound i e : forall t,
  In (SX i) (free_indices e) -> match_clipped_shift e (SX i) = Some t -> clip_sound e i t.
Proof.
  assert (NE : forall e, In (SX i) (free_indices e) -> is_nil (fsyms e) = false).
  { intros e0 H. unfold free_indices in H. apply filter_In in H as [H _].
    destruct (fsyms e0); [destruct H|reflexivity]. }
  induction e using phi_ind'; intros t' Hin Hm; cbn [match_clipped_shift] in Hm;
    rewrite (NE _ Hin) in Hm; try discriminate.
  - (* Store *) destruct (sym_eqb (SX i) s) eqn:Es; [|discriminate]. apply sym_eqb_eq in Es. subst s.
    injection Hm as <-. repeat split; simpl; auto.
    + intros (v & Hv & Hs). simpl in Hv. rewrite H in Hv. simpl in Hv. injection Hv as <-.
      unfold vint, val_scalar in Hs. simpl in Hs. rewrite ?as_scalar_ascalar in Hs.
      injection Hs as <-. exists None, None, None. repeat split; auto. unfold clip_form. lia.
    + intros (zd & zl & zh & Hd & Hl & Hh & ->). destruct zd, zl, zh; try contradiction.
      exists (vint k). split; [simpl; rewrite H; reflexivity|]. unfold clip_form. rewrite Z.add_0_r. reflexivity.
  - (* Bin *)
    rewrite fi_bin in Hin.
    assert (Hex : forall x, free_indices x = [] -> ~ In (SX i) (free_indices x)).
    { intros x ->. auto. }
    destruct o; try discriminate.
    + (* Add *)
      unfold first_opt in Hm. destruct (clip_shift_add (match_clipped_shift e1 (SX i)) e2) eqn:E1.
      * injection Hm as ->. apply clip_add_inv in E1 as (Hb & d & Ht & ->).
        apply in_app_or in Hin as [Hin|Hin]; [|apply Hex in Hb; contradiction].
        eapply add_sound; eauto. intros. apply bin_iff; auto.
      * apply clip_add_inv in Hm as (Ha & d & Ht & ->).
        apply in_app_or in Hin as [Hin|Hin]; [apply Hex in Ha; contradiction|].
        eapply add_sound; eauto. intros. rewrite bin_iff with (f := Z.add); auto.
        apply swap_bin. intros; lia.
    + (* Sub *)
      unfold first_opt in Hm. destruct (clip_shift_add (match_clipped_shift e1 (SX i)) (PUn UNeg e2)) eqn:E1.
      * injection Hm as ->. apply clip_add_inv in E1 as (Hb & d & Ht & ->).
        apply in_app_or in Hin as [Hin|Hin]; [|apply Hex in Hb; contradiction].
        eapply add_sound; eauto. intros E z. rewrite bin_iff with (f := Z.sub); auto.
        split; intros (x & y & Hx & Hy & ->).
        -- exists x, (- y)%Z. repeat split; auto. apply den_int_neg. rewrite Z.opp_involutive; auto.
        -- apply den_int_neg in Hy. exists x, (- y)%Z. repeat split; auto. lia.
      * apply clip_add_inv in Hm as (Ha & d & Ht & ->). exfalso.
        unfold match_negated in Ht. destruct (is_nil (fsyms (PUn UNeg e2))) eqn:E2; [|discriminate].
        apply is_nil_true in E2. simpl in E2.
        apply in_app_or in Hin as [Hin|Hin]; [apply Hex in Ha; contradiction|].
        unfold free_indices in Hin. rewrite E2 in Hin. destruct Hin.
    + (* Min *)
      unfold first_opt in Hm. destruct (clip_shift_min (match_clipped_shift e1 (SX i)) e2) eqn:E1.
      * injection Hm as ->.
        destruct (match_clipped_shift e1 (SX i)) eqn:M1;
          [|unfold clip_shift_min in E1; destruct (negb _); discriminate].
        apply in_app_or in Hin as [Hin|Hin].
        -- eapply min_sound; [|apply IHe1; eauto|exact E1]. intros. apply bin_iff; auto.
        -- exfalso. unfold clip_shift_min in E1.
           destruct (is_nil (free_indices e2)) eqn:Hb; simpl in E1; [|discriminate].
           apply is_nil_true in Hb. eapply Hex; eauto.
      * destruct (match_clipped_shift e2 (SX i)) eqn:M2;
          [|unfold clip_shift_min in Hm; destruct (negb _); discriminate].
        apply in_app_or in Hin as [Hin|Hin].
        -- exfalso. unfold clip_shift_min in Hm.
           destruct (is_nil (free_indices e1)) eqn:Hb; simpl in Hm; [|discriminate].
           apply is_nil_true in Hb. eapply Hex; eauto.
        -- eapply min_sound; [|apply IHe2; eauto|exact Hm].
           intros. rewrite bin_iff with (f := Z.min); auto. apply swap_bin. intros; lia.
    + (* Max *)
      unfold first_opt in Hm. destruct (clip_shift_max (match_clipped_shift e1 (SX i)) e2) eqn:E1.
      * injection Hm as ->.
        destruct (match_clipped_shift e1 (SX i)) eqn:M1;
          [|unfold clip_shift_max in E1; destruct (negb _); discriminate].
        apply in_app_or in Hin as [Hin|Hin].
        -- eapply max_sound; [|apply IHe1; eauto|exact E1]. intros. apply bin_iff; auto.
        -- exfalso. unfold clip_shift_max in E1.
           destruct (is_nil (free_indices e2)) eqn:Hb; simpl in E1; [|discriminate].
           apply is_nil_true in Hb. eapply Hex; eauto.
      * destruct (match_clipped_shift e2 (SX i)) eqn:M2;
          [|unfold clip_shift_max in Hm; destruct (negb _); discriminate].
        apply in_app_or in Hin as [Hin|Hin].
        -- exfalso. unfold clip_shift_max in Hm.
           destruct (is_nil (free_indices e1)) eqn:Hb; simpl in Hm; [|discriminate].
           apply is_nil_true in Hb. eapply Hex; eauto.
        -- eapply max_sound; [|apply IHe2; eauto|exact Hm].
           intros. rewrite bin_iff with (f := Z.max); auto. apply swap_bin. intros; lia.
Qed.

Lemma the_index_In l i : the_index l = Some i -> In (SX i) l.
Proof.
  unfold the_index. destruct l as [|[x|x] l]; try discriminate.
  destruct (forallb _ _); try discriminate. intros H. injection H as <-. left; auto.
Qed.

Lemma match_index_sound e i t :
  match_index_clipped_shift e = Some (i, t) -> clip_sound e i t.
Proof.
  unfold match_index_clipped_shift. destruct (the_index (free_indices e)) eqn:E; [|discriminate].
  destruct (match_clipped_shift e (SX n)) eqn:M; simpl; [|discriminate].
  intros H. injection H as <- <-. apply match_clipped_shift_sound; auto. apply the_index_In; auto.
Qed.

End ClipShift.
