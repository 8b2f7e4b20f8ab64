(** ein/midend/equiv.py: the disjoint-set structure used for size classes. *)
From Coq Require Import Relations.
From Verif Require Import Base.

Section Equiv.
Context {T : Type} (T_eq_dec : forall a b : T, {a = b} + {a <> b}).

(** What [_get_parent] does to its argument before the lookup: nothing for
    [Equivalence] (equiv.py:16-17), replacing free indices by 0 for
    [SizeEquivalence] (size_classes.py:46-52). *)
Variable norm : T -> T.

(** equiv.py:8-14.  Dicts are finite maps; sets are lists without order. *)
Record uf : Type := mkUf {
  uf_parent : T -> option T;
  uf_classes : T -> option (list T)
}.

Definition uf_empty : uf := mkUf (fun _ => None) (fun _ => None).

Definition uf_upd {A} (m : T -> option A) (k : T) (v : option A) : T -> option A :=
  fun x => if T_eq_dec x k then v else m x.

Definition uf_default {A} (o : option A) (d : A) : A :=
  match o with Some a => a | None => d end.

(** equiv.py:16-17 / size_classes.py:47-52 *)
Definition get_parent (s : uf) (u : T) : T :=
  uf_default (uf_parent s (norm u)) (norm u).

(** equiv.py:19-21 *)
Definition uf_find (s : uf) (u : T) : list T :=
  let p := get_parent s u in uf_default (uf_classes s p) [p].

(** equiv.py:23-30 *)
Definition uf_equiv (s : uf) (args : list T) : bool :=
  match args with
  | [] => true
  | a :: rest =>
      forallb (fun v => if T_eq_dec (get_parent s a) (get_parent s v) then true else false) rest
  end.

(** set.add *)
Definition set_add (x : T) (l : list T) : list T :=
  if in_dec T_eq_dec x l then l else l ++ [x].

(** equiv.py:38-40: the loop over the popped class. *)
Fixpoint uf_absorb (s : uf) (v : T) (ws : list T) : uf :=
  match ws with
  | [] => s
  | w :: ws =>
      uf_absorb (mkUf (uf_upd (uf_parent s) w (Some v))
                      (uf_upd (uf_classes s) v
                         (Some (set_add w (uf_default (uf_classes s v) [])))))
                v ws
  end.

(** equiv.py:32-41 *)
Definition uf_unite (s : uf) (u0 v0 : T) : uf * bool :=
  let u1 := get_parent s u0 in
  let v1 := get_parent s v0 in
  if T_eq_dec u1 v1 then (s, false)
  else
    let swap := length (uf_find s v1) <? length (uf_find s u1) in
    let u := if swap then v1 else u1 in
    let v := if swap then u1 else v1 in
    let cls1 := uf_upd (uf_classes s) v (Some (uf_default (uf_classes s v) [v])) in
    let ws := uf_default (cls1 u) [u] in
    let cls2 := uf_upd cls1 u None in
    (uf_absorb (mkUf (uf_parent s) cls2) v ws, true).

Definition uf_run (ps : list (T * T)) : uf :=
  fold_left (fun s p => fst (uf_unite s (fst p) (snd p))) ps uf_empty.

(** * Invariant *)
Hypothesis norm_idem : forall x, norm (norm x) = norm x.

Lemma uf_upd_eq {A} (m : T -> option A) k v : uf_upd m k v k = v.
Proof. unfold uf_upd. destruct (T_eq_dec k k); congruence. Qed.
Lemma uf_upd_neq {A} (m : T -> option A) k v x : x <> k -> uf_upd m k v x = m x.
Proof. unfold uf_upd. destruct (T_eq_dec x k); congruence. Qed.

Lemma set_add_In x y l : In y (set_add x l) <-> y = x \/ In y l.
Proof.
  unfold set_add. destruct (in_dec T_eq_dec x l).
  - intuition congruence.
  - rewrite in_app_iff. simpl. intuition congruence.
Qed.

Record uf_inv (s : uf) : Prop := {
  inv_norm_p : forall u p, uf_parent s u = Some p -> norm u = u /\ norm p = p;
  inv_rep : forall u, get_parent s (get_parent s u) = get_parent s u;
  inv_cls : forall r, get_parent s r = r -> norm r = r ->
            forall w, In w (uf_default (uf_classes s r) [r]) <-> norm w = w /\ get_parent s w = r
}.

Lemma gp_norm s u : uf_inv s -> norm (get_parent s u) = get_parent s u.
Proof.
  intros I. unfold get_parent. destruct (uf_parent s (norm u)) eqn:E; simpl.
  - apply (inv_norm_p s I) in E. tauto.
  - apply norm_idem.
Qed.

Lemma empty_inv : uf_inv uf_empty.
Proof.
  constructor; simpl.
  - discriminate.
  - intros u. unfold get_parent; simpl. apply norm_idem.
  - unfold get_parent; simpl. intros r H1 H2 w. simpl. split.
    + intros [<-|[]]. auto.
    + intros [H3 H4]. left. congruence.
Qed.

Lemma absorb_parent ws : forall s v x,
  uf_parent (uf_absorb s v ws) x = if in_dec T_eq_dec x ws then Some v else uf_parent s x.
Proof.
  induction ws as [|w ws IH]; intros s v x; simpl; auto.
  rewrite IH. cbn [uf_parent].
  destruct (in_dec T_eq_dec x ws) as [i|i]; [destruct (T_eq_dec w x); auto|].
  unfold uf_upd. destruct (T_eq_dec x w), (T_eq_dec w x); congruence.
Qed.

Lemma absorb_classes_other ws : forall s v x,
  x <> v -> uf_classes (uf_absorb s v ws) x = uf_classes s x.
Proof.
  induction ws as [|w ws IH]; intros s v x H; simpl; auto.
  rewrite IH by auto. cbn [uf_classes]. apply uf_upd_neq; auto.
Qed.

Lemma absorb_classes_v ws : forall s v y,
  In y (uf_default (uf_classes (uf_absorb s v ws) v) []) <->
  In y (uf_default (uf_classes s v) []) \/ In y ws.
Proof.
  induction ws as [|w ws IH]; intros s v y; simpl; [tauto|].
  rewrite IH. cbn [uf_classes]. rewrite uf_upd_eq. simpl. rewrite set_add_In.
  intuition congruence.
Qed.

Lemma absorb_classes_some ws s v :
  uf_classes s v <> None -> uf_classes (uf_absorb s v ws) v <> None.
Proof.
  revert s. induction ws as [|w ws IH]; intros s H; simpl; auto.
  apply IH. cbn [uf_classes]. rewrite uf_upd_eq. discriminate.
Qed.

(** What one [unite] of two different classes does to the representatives. *)
Lemma unite_spec s u0 v0 :
  uf_inv s -> get_parent s u0 <> get_parent s v0 ->
  exists u v, ((u = get_parent s u0 /\ v = get_parent s v0) \/
               (v = get_parent s u0 /\ u = get_parent s v0)) /\
    uf_inv (fst (uf_unite s u0 v0)) /\
    (forall x, get_parent (fst (uf_unite s u0 v0)) x =
               if T_eq_dec (get_parent s x) u then v else get_parent s x).
Proof.
  intros I N.
  set (sw := length (uf_find s (get_parent s v0)) <? length (uf_find s (get_parent s u0))).
  set (u := if sw then get_parent s v0 else get_parent s u0).
  set (v := if sw then get_parent s u0 else get_parent s v0).
  exists u, v. split. { unfold u, v. destruct sw; auto. }
  assert (Ru : get_parent s u = u) by (unfold u; destruct sw; apply (inv_rep s I)).
  assert (Rv : get_parent s v = v) by (unfold v; destruct sw; apply (inv_rep s I)).
  assert (Nu : norm u = u) by (unfold u; destruct sw; apply gp_norm; auto).
  assert (Nv : norm v = v) by (unfold v; destruct sw; apply gp_norm; auto).
  assert (Huv : u <> v) by (unfold u, v; destruct sw; congruence).
  set (s' := fst (uf_unite s u0 v0)).
  assert (Hs' : s' = uf_absorb (mkUf (uf_parent s)
                   (uf_upd (uf_upd (uf_classes s) v (Some (uf_default (uf_classes s v) [v]))) u None))
                   v (uf_default (uf_classes s u) [u])).
  { unfold s', uf_unite. destruct (T_eq_dec (get_parent s u0) (get_parent s v0)); [congruence|].
    cbn [fst]. fold sw. fold u. fold v. rewrite (uf_upd_neq _ v) by auto. reflexivity. }
  clearbody s'. clearbody u v. clear N sw.
  assert (GP : forall x, get_parent s' x = if T_eq_dec (get_parent s x) u then v else get_parent s x).
  { intros x. unfold get_parent at 1. rewrite Hs', absorb_parent. cbn [uf_parent].
    destruct (in_dec T_eq_dec (norm x) (uf_default (uf_classes s u) [u])) as [i|i].
    - apply (inv_cls s I u Ru Nu) in i as [i1 i2]. simpl.
      destruct (T_eq_dec (get_parent s x) u); auto. exfalso. apply n.
      unfold get_parent in i2 |- *. rewrite norm_idem in i2. exact i2.
    - change (uf_default (uf_parent s (norm x)) (norm x)) with (get_parent s x).
      destruct (T_eq_dec (get_parent s x) u); auto. exfalso. apply i.
      apply (inv_cls s I u Ru Nu). split; auto.
      unfold get_parent in e |- *. rewrite norm_idem. exact e. }
  split; [|exact GP].
  constructor.
  - intros x p. rewrite Hs', absorb_parent. cbn [uf_parent].
    destruct (in_dec T_eq_dec x (uf_default (uf_classes s u) [u])) as [i|i].
    + intros E. injection E as <-. apply (inv_cls s I u Ru Nu) in i. tauto.
    + apply (inv_norm_p s I).
  - intros x. rewrite (GP (get_parent s' x)), (GP x).
    destruct (T_eq_dec (get_parent s x) u).
    + rewrite Rv. destruct (T_eq_dec v u); congruence.
    + rewrite (inv_rep s I). destruct (T_eq_dec (get_parent s x) u); congruence.
  - intros r Hr Nr w. rewrite GP in Hr |- *.
    destruct (T_eq_dec r v) as [->|Nrv].
    + assert (Hc : In w (uf_default (uf_classes s' v) [v]) <->
                   In w (uf_default (uf_classes s' v) [])).
      { destruct (uf_classes s' v) eqn:E; simpl; [tauto|]. exfalso. revert E. rewrite Hs'.
        apply absorb_classes_some. cbn [uf_classes]. rewrite uf_upd_neq by auto.
        rewrite uf_upd_eq. discriminate. }
      rewrite Hc, Hs', absorb_classes_v. cbn [uf_classes].
      rewrite uf_upd_neq by auto. rewrite uf_upd_eq. simpl.
      rewrite (inv_cls s I v Rv Nv), (inv_cls s I u Ru Nu).
      destruct (T_eq_dec (get_parent s w) u); intuition congruence.
    + assert (Nru : r <> u).
      { intros ->. rewrite Ru in Hr. destruct (T_eq_dec u u); congruence. }
      assert (Rr : get_parent s r = r).
      { destruct (T_eq_dec (get_parent s r) u); congruence. }
      rewrite Hs', absorb_classes_other by auto. cbn [uf_classes].
      rewrite !uf_upd_neq by auto. rewrite (inv_cls s I r Rr Nr).
      destruct (T_eq_dec (get_parent s w) u); intuition congruence.
Qed.

Lemma unite_same s u v :
  get_parent s u = get_parent s v -> uf_unite s u v = (s, false).
Proof.
  intros H. unfold uf_unite. destruct (T_eq_dec (get_parent s u) (get_parent s v)); congruence.
Qed.

(** Pairs of (normalised) elements that were united. *)
Definition united (ps : list (T * T)) (x y : T) : Prop :=
  exists a b, In (a, b) ps /\ x = norm a /\ y = norm b.

Definition connected (ps : list (T * T)) (x y : T) : Prop :=
  clos_refl_sym_trans T (united ps) (norm x) (norm y).

Lemma united_mono ps p x y : united ps x y -> united (ps ++ [p]) x y.
Proof. intros (a & b & H & E). exists a, b. split; auto. apply in_or_app; auto. Qed.

Lemma crst_mono (R1 R2 : T -> T -> Prop) x y :
  (forall a b, R1 a b -> R2 a b) ->
  clos_refl_sym_trans T R1 x y -> clos_refl_sym_trans T R2 x y.
Proof.
  intros H C. induction C.
  - apply rst_step; auto.
  - apply rst_refl.
  - apply rst_sym; auto.
  - eapply rst_trans; eauto.
Qed.

Lemma run_snoc ps p :
  uf_run (ps ++ [p]) = fst (uf_unite (uf_run ps) (fst p) (snd p)).
Proof. unfold uf_run. rewrite fold_left_app. reflexivity. Qed.

Lemma gp_norm_arg s x : get_parent s (norm x) = get_parent s x.
Proof. unfold get_parent. rewrite norm_idem. reflexivity. Qed.

Lemma run_inv ps : uf_inv (uf_run ps) /\
  forall x y, get_parent (uf_run ps) x = get_parent (uf_run ps) y <-> connected ps x y.
Proof.
  induction ps as [|[a b] ps [I IH]] using rev_ind.
  - split; [apply empty_inv|]. intros x y. unfold uf_run; simpl. unfold get_parent; simpl.
    unfold connected. split; intros H.
    + rewrite H. apply rst_refl.
    + remember (norm x) as x'. remember (norm y) as y'. clear Heqx' Heqy'.
      induction H; auto; try congruence. destruct H as (? & ? & [] & _).
  - rewrite run_snoc. cbn [fst snd].
    destruct (T_eq_dec (get_parent (uf_run ps) a) (get_parent (uf_run ps) b)) as [E|N].
    + rewrite unite_same by auto. cbn [fst]. split; auto. intros x y. rewrite IH.
      apply IH in E. unfold connected in *. split; intros H.
      * eapply crst_mono; [|exact H]. intros; apply united_mono; auto.
      * induction H.
        -- destruct H as (c & d & Hin & -> & ->). apply in_app_or in Hin as [Hin|[Hin|[]]].
           ++ apply rst_step. exists c, d; auto.
           ++ injection Hin as <- <-. exact E.
        -- apply rst_refl.
        -- apply rst_sym; auto.
        -- eapply rst_trans; eauto.
    + destruct (unite_spec _ a b I N) as (u & v & Huv & I' & GP).
      split; auto. set (s' := fst (uf_unite (uf_run ps) a b)) in *. intros x y.
      assert (Hlink : connected (ps ++ [(a, b)]) a b).
      { apply rst_step. exists a, b. split; auto. apply in_or_app. right; left; auto. }
      assert (Hold : forall z w, get_parent (uf_run ps) z = get_parent (uf_run ps) w ->
                 connected (ps ++ [(a, b)]) z w).
      { intros z w H. apply IH in H. eapply crst_mono; [|exact H].
        intros; apply united_mono; auto. }
      split; intros H.
      * rewrite !GP in H.
        assert (Hcase : forall z, connected (ps ++ [(a,b)]) z
                  (if T_eq_dec (get_parent (uf_run ps) z) u then v else get_parent (uf_run ps) z)).
        { intros z. destruct (T_eq_dec (get_parent (uf_run ps) z) u) as [Ez|Nz].
          - destruct Huv as [[-> ->]|[-> ->]].
            + eapply rst_trans; [apply (Hold z a); auto|].
              eapply rst_trans; [exact Hlink|]. apply Hold. symmetry. apply (inv_rep _ I).
            + eapply rst_trans; [apply (Hold z b); auto|].
              eapply rst_trans; [apply rst_sym; exact Hlink|]. apply Hold.
              symmetry. apply (inv_rep _ I).
          - apply Hold. symmetry. apply (inv_rep _ I). }
        unfold connected in *. eapply rst_trans; [apply (Hcase x)|]. rewrite H.
        apply rst_sym. apply (Hcase y).
      * rewrite <- (gp_norm_arg s' x), <- (gp_norm_arg s' y).
        unfold connected in H.
        induction H; auto; try congruence.
        destruct H as (c & d & Hin & -> & ->). rewrite !gp_norm_arg.
        apply in_app_or in Hin as [Hin|[Hin|[]]].
        -- assert (E : get_parent (uf_run ps) c = get_parent (uf_run ps) d).
           { apply IH. apply rst_step. exists c, d; auto. }
           rewrite !GP, E. auto.
        -- injection Hin as <- <-. rewrite !GP.
           destruct Huv as [[-> ->]|[-> ->]];
             destruct (T_eq_dec (get_parent (uf_run ps) a) (get_parent (uf_run ps) a)),
                      (T_eq_dec (get_parent (uf_run ps) b) (get_parent (uf_run ps) b)),
                      (T_eq_dec (get_parent (uf_run ps) a) (get_parent (uf_run ps) b)),
                      (T_eq_dec (get_parent (uf_run ps) b) (get_parent (uf_run ps) a)); congruence.
Qed.

Theorem equiv_exact ps args :
  uf_equiv (uf_run ps) args = true <->
  forall x y, In x args -> In y args -> connected ps x y.
Proof.
  destruct (run_inv ps) as [I C]. destruct args as [|a args]; simpl.
  - split; auto. intros _ x y [].
  - rewrite forallb_forall. split; intros H.
    + assert (Ha : forall z, a = z \/ In z args ->
                 get_parent (uf_run ps) a = get_parent (uf_run ps) z).
      { intros z [<-|Hz]; auto. specialize (H z Hz).
        destruct (T_eq_dec (get_parent (uf_run ps) a) (get_parent (uf_run ps) z)); congruence. }
      intros x y Hx Hy. apply C. rewrite <- (Ha x Hx), <- (Ha y Hy). reflexivity.
    + intros z Hz. assert (E : get_parent (uf_run ps) a = get_parent (uf_run ps) z).
      { apply C. apply H; auto. }
      rewrite E. destruct (T_eq_dec (get_parent (uf_run ps) z) (get_parent (uf_run ps) z)); congruence.
Qed.

Theorem find_exact ps x y :
  norm y = y -> (In y (uf_find (uf_run ps) x) <-> connected ps x y).
Proof.
  intros Ny. destruct (run_inv ps) as [I C]. unfold uf_find.
  rewrite (inv_cls _ I) by (try apply (inv_rep _ I); apply gp_norm; auto).
  rewrite <- C. intuition congruence.
Qed.

Theorem unite_result ps a b :
  snd (uf_unite (uf_run ps) a b) = true <-> ~ connected ps a b.
Proof.
  destruct (run_inv ps) as [I C]. rewrite <- C. unfold uf_unite.
  destruct (T_eq_dec (get_parent (uf_run ps) a) (get_parent (uf_run ps) b)); simpl;
    split; congruence.
Qed.

End Equiv.
