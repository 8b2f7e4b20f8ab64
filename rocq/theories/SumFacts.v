(** Sums of floats over ranges, over the values of loop counters and over the
    positions of indices. *)
From Verif Require Import Base Scalar Tensor Types Sym Phi Den Term PhiTerm DenFree SpecPhi Typing
  Yarr Axial AxialFacts AxialOps CodegenSub.
From Coq Require Import Ring Permutation.

Lemma NoDup_app_disj {A} (l l' : list A) : NoDup l -> NoDup l' -> (forall x, In x l -> ~ In x l') -> NoDup (l ++ l').
Proof.
  induction l as [|x l IH]; simpl; auto. intros H H' HD. inversion H; subst. constructor.
  - rewrite in_app_iff. intros [K|K]; [auto|]. apply (HD x); auto.
  - apply IH; auto.
Qed.

Section Sums.
Context {FO : FloatOps}.
Notation "0f" := (f_of_Z 0).
Notation "1f" := (f_of_Z 1).

(** h 0 + ... + h (n-1) *)
Fixpoint sumn (n : nat) (h : nat -> F) : F :=
  match n with 0 => 0f | S n => fadd (sumn n h) (h n) end.
Definition suml (l : list F) : F := fold_right fadd 0f l.
Definition prodl (l : list F) : F := fold_right fmul 1f l.

(** The sum of [g] over all values of the counters. *)
Fixpoint csum (cs : list (nat * nat)) (g : env -> F) (E : env) : F :=
  match cs with
  | [] => g E
  | (c, n) :: cs => sumn n (fun k => csum cs g (upd E (SV c) (vnat k)))
  end.

(** The sum of [g] over all positions of the indices. *)
Fixpoint isum (N : nat -> nat) (is : list nat) (g : asg -> F) (s : asg) : F :=
  match is with
  | [] => g s
  | i :: is => sumn (N i) (fun k => isum N is g (set_asg s i k))
  end.

Lemma sumn_ext n h h' : (forall k, k < n -> h k = h' k) -> sumn n h = sumn n h'.
Proof. induction n as [|n IH]; intros H; simpl; auto. rewrite IH, H by auto. auto. Qed.

Variable L : float_laws.
Add Ring fring : (f_ring L).

Lemma sumn_zero n : sumn n (fun _ => 0f) = 0f.
Proof. induction n as [|n IH]; simpl; auto. rewrite IH. ring. Qed.
Lemma sumn_add n h h' : sumn n (fun k => fadd (h k) (h' k)) = fadd (sumn n h) (sumn n h').
Proof. induction n as [|n IH]; simpl; [ring|]. rewrite IH. ring. Qed.
Lemma sumn_mul_r n h c : sumn n (fun k => fmul (h k) c) = fmul (sumn n h) c.
Proof. induction n as [|n IH]; simpl; [ring|]. rewrite IH. ring. Qed.
Lemma sumn_mul_l n h c : sumn n (fun k => fmul c (h k)) = fmul c (sumn n h).
Proof. induction n as [|n IH]; simpl; [ring|]. rewrite IH. ring. Qed.
Lemma sumn_neg n h : sumn n (fun k => fneg (h k)) = fneg (sumn n h).
Proof. induction n as [|n IH]; simpl; [ring|]. rewrite IH. ring. Qed.
Lemma sumn_swap n m (h : nat -> nat -> F) :
  sumn n (fun a => sumn m (fun b => h a b)) = sumn m (fun b => sumn n (fun a => h a b)).
Proof.
  induction n as [|n IH]; simpl; [symmetry; apply sumn_zero|]. rewrite IH, <- sumn_add. reflexivity.
Qed.
Lemma sumn_S n h : sumn (S n) h = fadd (h 0) (sumn n (fun k => h (S k))).
Proof. induction n as [|n IH]; [simpl; ring|]. cbn [sumn] in *. rewrite IH. ring. Qed.

Lemma suml_app l l' : suml (l ++ l') = fadd (suml l) (suml l').
Proof. induction l as [|x l IH]; simpl; [ring|]. fold (suml (l ++ l')). rewrite IH. unfold suml. ring. Qed.
Lemma prodl_app l l' : prodl (l ++ l') = fmul (prodl l) (prodl l').
Proof. induction l as [|x l IH]; simpl; [ring|]. fold (prodl (l ++ l')). rewrite IH. unfold prodl. ring. Qed.
Lemma suml_map_add {A} (f g : A -> F) l : suml (map (fun x => fadd (f x) (g x)) l) = fadd (suml (map f l)) (suml (map g l)).
Proof. induction l as [|x l IH]; simpl; [ring|]. fold (suml (map (fun x => fadd (f x) (g x)) l)). rewrite IH. unfold suml. ring. Qed.
Lemma suml_mul_l x l : suml (map (fmul x) l) = fmul x (suml l).
Proof. induction l as [|y l IH]; simpl; [ring|]. fold (suml (map (fmul x) l)). rewrite IH. unfold suml. ring. Qed.
Lemma suml_neg {A} (f : A -> F) l : suml (map (fun x => fneg (f x)) l) = fneg (suml (map f l)).
Proof. induction l as [|y l IH]; simpl; [ring|]. fold (suml (map (fun x => fneg (f x)) l)). rewrite IH. unfold suml. ring. Qed.
Lemma suml_sumn {A} (l : list A) n (h : A -> nat -> F) :
  suml (map (fun x => sumn n (h x)) l) = sumn n (fun k => suml (map (fun x => h x k) l)).
Proof. induction l as [|x l IH]; simpl; [symmetry; apply sumn_zero|]. fold (suml (map (fun x => sumn n (h x)) l)). rewrite IH, <- sumn_add. reflexivity. Qed.
Lemma suml_seq n h : suml (map h (seq 0 n)) = sumn n h.
Proof.
  induction n as [|n IH]; auto. rewrite seq_S, map_app, suml_app, IH. simpl. ring.
Qed.
Lemma fold_left_add l a : fold_left fadd l a = fadd a (suml l).
Proof. revert a. induction l as [|x l IH]; intros a; simpl; [ring|]. rewrite IH. fold (suml l). ring. Qed.
Lemma fold_left_mul l a : fold_left fmul l a = fmul a (prodl l).
Proof. revert a. induction l as [|x l IH]; intros a; simpl; [ring|]. rewrite IH. fold (prodl l). ring. Qed.

(** *** Over counters *)
Lemma csum_ext cs g g' (P : env -> Prop) :
  (forall E c k, In c (map fst cs) -> P E -> P (upd E (SV c) (vnat k))) ->
  (forall E, P E -> g E = g' E) -> forall E, P E -> csum cs g E = csum cs g' E.
Proof.
  induction cs as [|[c n] cs IH]; intros HP H E HE; simpl; [auto|]. apply sumn_ext. intros k _. apply IH; auto.
  - intros. apply HP; auto. right; auto.
  - apply HP; auto. left; auto.
Qed.

(** [g] looks at the symbols in [D] only. *)
Definition depends (D : sym -> Prop) (g : env -> F) : Prop :=
  forall E E', (forall s, D s -> E s = E' s) -> g E = g E'.

Lemma csum_depends D cs g : depends D g -> depends D (csum cs g).
Proof.
  intros H. induction cs as [|[c n] cs IH]; intros E E' HE; simpl; [auto|]. apply sumn_ext. intros k _. apply IH.
  intros s Hs. destruct (sym_eq_dec s (SV c)) as [->|NE]; [rewrite !upd_eq; auto|]. rewrite !upd_neq by auto. auto.
Qed.

Lemma csum_irrel D cs g c v E : depends D g -> ~ D (SV c) -> csum cs g (upd E (SV c) v) = csum cs g E.
Proof.
  intros H N. apply (csum_depends D); auto. intros s Hs. rewrite upd_neq; auto. intros ->. auto.
Qed.

Lemma csum_zero cs E : csum cs (fun _ => 0f) E = 0f.
Proof.
  revert E. induction cs as [|[c n] cs IH]; intros E; simpl; auto.
  rewrite (sumn_ext n _ (fun _ => 0f)) by (intros; apply IH). apply sumn_zero.
Qed.
Lemma csum_neg cs g E : csum cs (fun E => fneg (g E)) E = fneg (csum cs g E).
Proof.
  revert E. induction cs as [|[c n] cs IH]; intros E; simpl; auto. rewrite <- sumn_neg. apply sumn_ext. auto.
Qed.
Lemma csum_app cs cs' g E : csum (cs ++ cs') g E = csum cs (csum cs' g) E.
Proof. revert E. induction cs as [|[c n] cs IH]; intros E; simpl; auto. apply sumn_ext. auto. Qed.

Lemma csum_mul_l D cs g h : depends D g -> (forall c, In c (map fst cs) -> ~ D (SV c)) ->
  forall E, csum cs (fun E => fmul (g E) (h E)) E = fmul (g E) (csum cs h E).
Proof.
  intros HD. induction cs as [|[c n] cs IH]; intros N E; simpl; auto. rewrite <- sumn_mul_l. apply sumn_ext. intros k _.
  rewrite IH by (intros; apply N; right; auto). f_equal. apply HD. intros s Hs. rewrite upd_neq; auto. intros ->. apply (N c); auto. left; auto.
Qed.
Lemma csum_mul_r D cs g h : depends D h -> (forall c, In c (map fst cs) -> ~ D (SV c)) ->
  forall E, csum cs (fun E => fmul (g E) (h E)) E = fmul (csum cs g E) (h E).
Proof.
  intros HD. induction cs as [|[c n] cs IH]; intros N E; simpl; auto. rewrite <- sumn_mul_r. apply sumn_ext. intros k _.
  rewrite IH by (intros; apply N; right; auto). f_equal. apply HD. intros s Hs. rewrite upd_neq; auto. intros ->. apply (N c); auto. left; auto.
Qed.

Lemma csum_prod D D' cs cs' g h E : depends D g -> depends D' h ->
  (forall c, In c (map fst cs') -> ~ D (SV c)) -> (forall c, In c (map fst cs) -> ~ D' (SV c)) ->
  csum (cs ++ cs') (fun E => fmul (g E) (h E)) E = fmul (csum cs g E) (csum cs' h E).
Proof.
  intros Hg Hh N N'. rewrite csum_app. rewrite (csum_ext cs _ (fun E => fmul (g E) (csum cs' h E)) (fun _ => True)); auto.
  - apply (csum_mul_r D'); auto. apply csum_depends; auto.
  - intros E' _. apply (csum_mul_l D); auto.
Qed.

Lemma upd_comm (E : env) s s' v v' q : s <> s' -> upd (upd E s v) s' v' q = upd (upd E s' v') s v q.
Proof.
  intros H. destruct (sym_eq_dec q s') as [Q|Q].
  - subst q. rewrite upd_eq, upd_neq, upd_eq by auto. auto.
  - rewrite (upd_neq _ s') by auto. destruct (sym_eq_dec q s) as [Q'|Q'].
    + subst q. rewrite !upd_eq. auto.
    + rewrite !upd_neq by auto. auto.
Qed.

Lemma csum_perm cs cs' g : depends (fun _ => True) g -> Permutation cs cs' -> NoDup (map fst cs) ->
  forall E, csum cs g E = csum cs' g E.
Proof.
  intros HD P. induction P; intros ND E.
  - auto.
  - destruct x as [c n]. simpl. inversion ND; subst. apply sumn_ext. auto.
  - destruct x as [c n], y as [c' n']. simpl. rewrite sumn_swap. apply sumn_ext. intros k _. apply sumn_ext. intros k' _.
    apply (csum_depends (fun _ => True)); auto. intros s _. apply upd_comm.
    intros Q. injection Q as ->. inversion ND as [|? ? H]. apply H. left; auto.
  - rewrite IHP1 by auto. apply IHP2. eapply Permutation_NoDup; [|exact ND]. apply Permutation_map. auto.
Qed.

(** *** Over indices *)
Lemma isum_ext N is g g' : (forall s, g s = g' s) -> forall s, isum N is g s = isum N is g' s.
Proof. intros H. induction is as [|i is IH]; intros s; simpl; auto. apply sumn_ext. auto. Qed.

Fixpoint sets (s : asg) (is ks : list nat) : asg :=
  match is, ks with
  | i :: is, k :: ks => sets (set_asg s i k) is ks
  | _, _ => s
  end.
Fixpoint binds_c (E : env) (cs ks : list nat) : env :=
  match cs, ks with
  | c :: cs, k :: ks => binds_c (upd E (SV c) (vnat k)) cs ks
  | _, _ => E
  end.

Lemma isum_csum N is : forall cs g h s E, length cs = length is ->
  (forall ks, Forall2 (fun k i => k < N i) ks is -> g (sets s is ks) = h (binds_c E cs ks)) ->
  isum N is g s = csum (combine cs (map N is)) h E.
Proof.
  induction is as [|i is IH]; intros [|c cs] g h s E HL H; try discriminate; simpl.
  - apply (H []). constructor.
  - apply sumn_ext. intros k Hk. apply IH; [simpl in HL; lia|]. intros ks Hks. apply (H (k :: ks)). constructor; auto.
Qed.

Lemma isum_perm N is is' g : Permutation is is' -> NoDup is ->
  (forall s s', (forall i, s i = s' i) -> g s = g s') -> forall s, isum N is g s = isum N is' g s.
Proof.
  intros P. induction P; intros ND HG s.
  - auto.
  - simpl. inversion ND; subst. apply sumn_ext. auto.
  - simpl. rewrite sumn_swap. apply sumn_ext. intros k _. apply sumn_ext. intros k' _.
    assert (HI : forall l s s', (forall i, s i = s' i) -> isum N l g s = isum N l g s').
    { clear - HG. induction l as [|i l IH]; intros s s' H; simpl; auto. apply sumn_ext. intros k _. apply IH.
      intros j. unfold set_asg. destruct (_ =? _); auto. }
    apply HI. intros j. unfold set_asg. inversion ND as [|? ? H]; subst.
    destruct (Nat.eqb_spec j x), (Nat.eqb_spec j y); auto. subst. exfalso. apply H. left; auto.
  - rewrite IHP1 by auto. apply IHP2; auto. eapply Permutation_NoDup; eauto.
Qed.
End Sums.
