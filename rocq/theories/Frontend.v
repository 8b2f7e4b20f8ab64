(** ein/frontend/ndarray.py:255-371 (scalar operators) and ein/frontend/std.py
    (library reductions). *)
From Verif Require Import Base Scalar Tensor Types Sym Phi Den Typing DenWf.

Section Frontend.
Context {FO : FloatOps} {EX : Externs}.

Definition p_float (f : F) : phi := PConst (ascalar (SF f)).

(** ndarray.py:287-294, 336-343, 354-356, 369-371 *)
Definition f_rsub (self other : phi) : phi := PBin BAdd (PUn UNeg self) other.
Definition f_div (self other : phi) : phi := PBin BMul self (PUn URecip other).
Definition f_gt (self other : phi) : phi := PBin BLt other self.
Definition f_ge (self other : phi) : phi := PBin BLe other self.
Definition f_abs (fzero : F) (self : phi) : phi :=
  let zero := match typ self with Ok (TScalar KInt) => p_int 0 | _ => p_float fzero end in
  PWhere (f_gt self zero) self (PUn UNeg self).
Definition f_tanh (self : phi) : phi :=
  let a := PUn UExp self in
  let b := PUn UExp (PUn UNeg self) in
  f_div (PBin BSub a b) (PBin BAdd a b).

(** ndarray.py:306-314 [go]; [None]: out of fuel. *)
Fixpoint pow_go (fuel : nat) (self : phi) (k : Z) : option phi :=
  match fuel with
  | 0 => None
  | S fuel =>
      if (k =? 1)%Z then Some self
      else if Z.odd k then
        match pow_go fuel self (k - 1) with Some r => Some (PBin BMul r self) | None => None end
      else
        match pow_go fuel self (k / 2) with Some s => Some (PBin BMul s s) | None => None end
  end.

(** ndarray.py:299-316 [__pow__] with an integer power; [fone] is 1.0. *)
Definition f_pow (fone : F) (fuel : nat) (self : phi) (power : Z) : option phi :=
  if (power <? 0)%Z then pow_go fuel (f_div (p_float fone) self) (- power)
  else pow_go fuel self power.

(** Terms made of one term by multiplication only. *)
Inductive product_of (self : phi) : phi -> Prop :=
| po_self : product_of self self
| po_mul a b : product_of self a -> product_of self b -> product_of self (PBin BMul a b).

Lemma pow_go_defined self k : (1 <= k)%Z -> forall fuel, (2 * k <= Z.of_nat fuel)%Z ->
  exists r, pow_go fuel self k = Some r /\ product_of self r.
Proof.
  intros Hk fuel. revert k Hk. induction fuel as [|fuel IH]; intros k Hk Hf; [lia|]. cbn [pow_go].
  destruct (Z.eqb_spec k 1) as [->|N]; [eexists; split; eauto; constructor|].
  destruct (Z.odd k) eqn:O.
  - destruct (IH (k - 1)%Z) as (r & Hr & Pr); [lia|lia|]. rewrite Hr. eexists; split; eauto.
    constructor; auto. constructor.
  - assert (1 <= k / 2)%Z by (apply Z.div_le_lower_bound; lia).
    assert (k / 2 < k)%Z by (apply Z.div_lt; lia).
    destruct (IH (k / 2)%Z) as (r & Hr & Pr); [lia|lia|]. rewrite Hr. eexists; split; eauto.
    constructor; auto.
Qed.

Lemma pow_go_zero fuel self : pow_go fuel self 0 = None.
Proof. induction fuel; simpl; auto. change (0 / 2)%Z with 0%Z. rewrite IHfuel. reflexivity. Qed.

Lemma pow_go_mul E self (x : scalar) (p : Z -> scalar) :
  den E self = Ok (vscalar x) -> p 1%Z = x ->
  (forall a b, (1 <= a)%Z -> (1 <= b)%Z -> sem_bin BMul (p a) (p b) = Some (p (a + b)%Z)) ->
  forall fuel k r, (1 <= k)%Z -> pow_go fuel self k = Some r -> den E r = Ok (vscalar (p k)).
Proof.
  intros Hd H1 Hm. induction fuel as [|fuel IH]; intros k r Hk H; [discriminate|]. cbn [pow_go] in H.
  assert (L : forall a b u v, den E a = Ok (vscalar u) -> den E b = Ok (vscalar v) ->
     forall w, sem_bin BMul u v = Some w -> den E (PBin BMul a b) = Ok (vscalar w)).
  { intros a b u v Ha Hb w Hw. cbn [den]. rewrite Ha, Hb. cbn [bind]. unfold lift2.
    change (val_scalar (vscalar u)) with (@Ok scalar u). change (val_scalar (vscalar v)) with (@Ok scalar v).
    cbn [bind]. rewrite Hw. reflexivity. }
  destruct (Z.eqb_spec k 1) as [->|N]; [injection H as <-; rewrite H1; auto|].
  destruct (Z.odd k) eqn:O.
  - destruct (pow_go fuel self (k - 1)) eqn:G; [|discriminate]. injection H as <-.
    apply IH in G; [|lia]. eapply L; eauto. rewrite <- H1, Hm by lia. do 2 f_equal. lia.
  - destruct (pow_go fuel self (k / 2)) eqn:G; [|discriminate]. injection H as <-.
    assert (1 <= k / 2)%Z by (apply Z.div_le_lower_bound; lia).
    apply IH in G; [|lia]. eapply L; eauto. rewrite Hm by lia. do 2 f_equal.
    rewrite <- (Z.negb_odd k), negb_true_iff, <- Z.negb_even in O || idtac.
    pose proof (Zodd_even_bool k) as Q. rewrite O in Q. apply eq_sym, negb_false_iff in Q.
    apply Z.even_spec in Q as [m ->]. rewrite (Z.mul_comm 2 m), Z.div_mul by lia. lia.
Qed.

(** * Monoids of std.py:29-46 *)

(** std.py:34-35 and comprehension.py:156-175: [monoid.fold(f, count)] with
    fresh counter [c] and accumulator [acc] of type [t]. *)
Definition m_fold (ident : phi) (concat : phi -> phi -> phi) (t : ty) (f : phi -> phi)
    (n : phi) (c acc : nat) : phi :=
  PFold c n acc ident (concat (p_var acc t) (f (p_var c (TScalar KInt)))).

(** std.py:37-38, comprehension.py:140-153, ndarray.py:230-252:
    [array(f, size=count).reduce(identity, concat)] *)
Definition m_reduce (ident : phi) (concat : phi -> phi -> phi) (t : ty) (f : phi -> phi)
    (n : phi) (i x y : nat) : phi :=
  PReduce ident x y (concat (p_var x t) (p_var y t)) [PVec i n (f (p_at i))].

(** std.py:41-46 *)
Definition sum_concat : phi -> phi -> phi := PBin BAdd.
Definition min_concat : phi -> phi -> phi := PBin BMin.
Definition max_concat : phi -> phi -> phi := PBin BMax.
(** where(a[0] <= b[0], a, b) on pairs packed as Cons (std.py:12-22) *)
Definition argmin_concat (a b : phi) : phi :=
  let c := PBin BLe (PFirst a) (PFirst b) in
  PCons (PWhere c (PFirst a) (PFirst b)) (PWhere c (PSecond a) (PSecond b)).

Definition fold_sum fzero f n c acc := m_fold (p_float fzero) sum_concat (TScalar KFloat) f n c acc.
Definition fold_min finf f n c acc := m_fold (p_float finf) min_concat (TScalar KFloat) f n c acc.
Definition fold_max fninf f n c acc := m_fold (p_float fninf) max_concat (TScalar KFloat) f n c acc.
Definition fold_argmin finf f n c acc :=
  PSecond (m_fold (PCons (p_float finf) (p_int 0)) argmin_concat
    (TPair (TScalar KFloat) (TScalar KInt)) (fun i => PCons (f i) i) n c acc).
Definition reduce_sum fzero f n i x y := m_reduce (p_float fzero) sum_concat (TScalar KFloat) f n i x y.
Definition reduce_min finf f n i x y := m_reduce (p_float finf) min_concat (TScalar KFloat) f n i x y.
Definition reduce_max fninf f n i x y := m_reduce (p_float fninf) max_concat (TScalar KFloat) f n i x y.
Definition reduce_argmin finf f n i x y :=
  PSecond (m_reduce (PCons (p_float finf) (p_int 0)) argmin_concat
    (TPair (TScalar KFloat) (TScalar KInt)) (fun i => PCons (f i) i) n i x y).

(** [concat] computes [op] on the values of its operands. *)
Definition computes (concat : phi -> phi -> phi) (op : val -> val -> res val) : Prop :=
  forall E a b va vb, den E a = Ok va -> den E b = Ok vb -> den E (concat a b) = op va vb.

Lemma bin_computes o : computes (PBin o) (lift2 (sem_bin o)).
Proof. intros E a b va vb Ha Hb. cbn [den]. rewrite Ha, Hb. reflexivity. Qed.

Fixpoint op_fold (op : val -> val -> res val) (v : val) (xs : list val) : res val :=
  match xs with
  | [] => Ok v
  | x :: xs => let* w := op v x in op_fold op w xs
  end.

Lemma op_fold_iter (op : val -> val -> res val) (x : nat -> val) : forall n k v,
  op_fold op v (map x (seq k n)) = iter_res (fun k v => op v (x k)) k n v.
Proof. induction n as [|n IH]; intros k v; simpl; auto. destruct (op v (x k)); simpl; auto. Qed.

Lemma m_fold_den E ident concat op t f sz c acc z v0 (x : nat -> val) :
  computes concat op -> c <> acc ->
  den E sz = Ok (vint z) -> den E ident = Ok v0 ->
  (forall k a, (Z.of_nat k < z)%Z ->
     den (upd (upd E (SV acc) a) (SV c) (vint (Z.of_nat k))) (f (p_var c (TScalar KInt))) = Ok (x k)) ->
  den E (m_fold ident concat t f sz c acc) = op_fold op v0 (map x (seq 0 (Z.to_nat z))).
Proof.
  intros HC Hne Hz Hi Hx. unfold m_fold. cbn [den]. rewrite Hz. cbn [bind].
  change (val_int (vint z)) with (@Ok Z z). cbn [bind]. rewrite Hi. cbn [bind].
  rewrite op_fold_iter. apply iter_res_ext. intros j b Hj.
  apply HC; [|apply Hx; lia]. cbn [den p_var]. rewrite upd_neq, upd_eq by congruence. reflexivity.
Qed.

Lemma m_reduce_den E ident concat op t f sz i x y z v0 (xs : nat -> val) :
  computes concat op -> x <> y -> (1 <= z)%Z ->
  den E sz = Ok (vint z) -> den E ident = Ok v0 ->
  (forall k, (Z.of_nat k < z)%Z -> val_wf (xs k) /\ vlike (xs 0) (xs k) = true /\
     den (upd E (SX i) (vint (Z.of_nat k))) (f (p_at i)) = Ok (xs k)) ->
  den E (m_reduce ident concat t f sz i x y) = op_fold op v0 (map xs (seq 0 (Z.to_nat z))).
Proof.
  intros HC Hne Hp Hz Hi Hx. unfold m_reduce. cbn [den mapM]. rewrite Hz. cbn [bind].
  change (val_int (vint z)) with (@Ok Z z). cbn [bind].
  destruct (Hx 0) as (_ & _ & H0); [lia|]. change (Z.of_nat 0) with 0%Z in H0. rewrite H0. cbn [bind].
  assert (M : mapM (fun k => den (upd E (SX i) (vnat k)) (f (p_at i))) (seq 0 (Z.to_nat z)) = Ok (map xs (seq 0 (Z.to_nat z)))).
  { rewrite <- mapM_Ok. apply mapM_ext. intros k Hk. apply in_seq in Hk. apply Hx. lia. }
  rewrite M. cbn [bind].
  destruct (vstack_defined (xs 0) (map xs (seq 0 (Z.to_nat z)))) as [v Hv].
  { apply Forall_map, Forall_forall. intros k Hk. apply in_seq in Hk. apply Hx. lia. }
  rewrite Hv. cbn [bind mapM]. rewrite (vdim_vstack _ _ _ Hv). cbn [bind forallb guard].
  rewrite map_length, seq_length. rewrite Hi. cbn [bind].
  rewrite op_fold_iter. apply iter_res_ext. intros j b Hj.
  rewrite (vget_vstack (xs 0) (map xs (seq 0 (Z.to_nat z))) v j (xs j)); auto.
  - rewrite (nth_map_lt xs _ _ 0), seq_nth by (rewrite ?seq_length; lia). cbn [bind fold_left].
    apply HC; cbn [den p_var]; [rewrite upd_neq, upd_eq by congruence|rewrite upd_eq]; reflexivity.
  - apply Forall_map, Forall_forall. intros k Hk. apply in_seq in Hk. apply Hx. lia.
  - rewrite map_length, seq_length. lia.
Qed.

(** * Sums and extrema *)
Definition vfloat (f : F) : val := vscalar (SF f).

Lemma op_fold_bin o (g : F -> F -> F) xs : forall a,
  (forall x y, sem_bin o (SF x) (SF y) = Some (SF (g x y))) ->
  op_fold (lift2 (sem_bin o)) (vfloat a) (map vfloat xs) = Ok (vfloat (fold_left g xs a)).
Proof.
  induction xs as [|x xs IH]; intros a H; simpl; auto.
  unfold lift2 at 1. change (val_scalar (vfloat ?u)) with (@Ok scalar (SF u)). cbn [bind].
  rewrite H. cbn [of_opt bind]. apply IH; auto.
Qed.

(** A selective operation on a total preorder picks an extremum. *)
Lemma fold_left_extremum (P : F -> Prop) (le : F -> F -> bool) (g : F -> F -> F) (top : F) xs :
  (forall a, P a -> le a a = true) ->
  (forall a b c, P a -> P b -> P c -> le a b = true -> le b c = true -> le a c = true) ->
  (forall a b, P a -> P b -> (g a b = a \/ g a b = b) /\ le (g a b) a = true /\ le (g a b) b = true) ->
  P top -> Forall P xs -> Forall (fun x => le x top = true) xs -> xs <> [] ->
  let m := fold_left g xs top in
  (forall x, In x xs -> le m x = true) /\ exists x, In x xs /\ le x m = true.
Proof.
  intros R T S Pt Px Lx Ne. cbv zeta.
  assert (G : forall xs a, P a -> Forall P xs ->
    let m := fold_left g xs a in
    P m /\ le m a = true /\ (forall x, In x xs -> le m x = true) /\ (m = a \/ In m xs)).
  { clear - R T S. induction xs as [|x xs IH]; cbv zeta; intros a Pa Px; simpl.
    - repeat split; auto; intros ? [].
    - inversion Px; subst. destruct (S a x Pa H1) as (C & L1 & L2).
      assert (Pg : P (g a x)) by (destruct C as [->| ->]; auto).
      destruct (IH (g a x) Pg H2) as (I1 & I2 & I3 & I4). cbv zeta in *.
      split; auto. split; [eapply T; [| | |exact I2|exact L1]; auto|]. split.
      + intros y [<-|Hy]; auto. eapply T; [| | |exact I2|exact L2]; auto.
      + destruct I4 as [I4|I4]; auto. rewrite I4. destruct C as [->| ->]; auto. }
  destruct (G xs top Pt Px) as (I1 & I2 & I3 & I4). cbv zeta in *. split; auto.
  destruct I4 as [I4|I4].
  - destruct xs as [|x xs]; [congruence|]. exists x. split; [simpl; auto|].
    rewrite I4. inversion Lx; auto.
  - eexists. split; [exact I4|]. apply R; auto.
Qed.

(** * argmin *)
Definition argmin_op (v w : val) : res val :=
  match v, w with
  | VPair v0 v1, VPair w0 w1 =>
      let* c := lift2 (sem_bin BLe) v0 w0 in
      let* a := lift3 sem_where c v0 w0 in
      let* b := lift3 sem_where c v1 w1 in Ok (VPair a b)
  | _, _ => Err EType
  end.

Lemma argmin_computes : computes argmin_concat argmin_op.
Proof.
  intros E a b va vb Ha Hb. unfold argmin_concat. cbn [den]. rewrite Ha, Hb. cbn [bind].
  destruct va as [x|v0 v1]; [reflexivity|]. cbn [as_pair bind fst snd].
  destruct vb as [x|w0 w1]; [reflexivity|]. cbn [as_pair bind fst snd argmin_op].
  destruct (lift2 (sem_bin BLe) v0 w0); simpl; auto.
Qed.

Definition pairv (p : F * Z) : val := VPair (vfloat (fst p)) (vint (snd p)).
Definition pick (a b : F * Z) : F * Z := if fleb (fst a) (fst b) then a else b.

Lemma argmin_op_pair a b : argmin_op (pairv a) (pairv b) = Ok (pairv (pick a b)).
Proof.
  destruct a as [x i], b as [y j]. unfold pick. simpl. destruct (fleb x y); reflexivity.
Qed.

Lemma op_fold_pick ps : forall a, op_fold argmin_op (pairv a) (map pairv ps) = Ok (pairv (fold_left pick ps a)).
Proof.
  induction ps as [|p ps IH]; intros a; simpl map; cbn [op_fold fold_left]; auto.
  rewrite argmin_op_pair. cbn [bind]. apply IH.
Qed.

Lemma pick_first (P : F -> Prop) (x : nat -> F) top n :
  (forall a, P a -> fleb a a = true) ->
  (forall a b c, P a -> P b -> P c -> fleb a b = true -> fleb b c = true -> fleb a c = true) ->
  (forall a b, P a -> P b -> fleb a b = true \/ fleb b a = true) ->
  P top -> (forall k, k < n -> P (x k) /\ fleb (x k) top = true) -> 1 <= n ->
  exists j, j < n /\ snd (fold_left pick (map (fun k => (x k, Z.of_nat k)) (seq 0 n)) (top, 0%Z)) = Z.of_nat j /\
    (forall k, k < n -> fleb (x j) (x k) = true) /\
    (forall k, k < j -> fleb (x k) (x j) = false).
Proof.
  intros R T To Pt Px Hn.
  assert (G : forall m, m <= n ->
    let r := fold_left pick (map (fun k => (x k, Z.of_nat k)) (seq 0 m)) (top, 0%Z) in
    (r = (top, 0%Z) /\ (forall k, k < m -> fleb top (x k) = true)) \/
    (exists j, j < m /\ r = (x j, Z.of_nat j) /\ (forall k, k < m -> fleb (x j) (x k) = true) /\
       (forall k, k < j -> fleb (x k) (x j) = false))).
  { induction m as [|m IH]; cbv zeta; intros Hm; [left; simpl; split; auto; lia|].
    rewrite seq_S, map_app, fold_left_app. simpl. destruct (Px m ltac:(lia)) as [Pm Lm].
    destruct IH as [[IH1 IH2]|(j & Hj & IH1 & IH2 & IH3)]; [lia| |]; cbv zeta in *; rewrite IH1; unfold pick; simpl.
    - destruct (fleb top (x m)) eqn:Q.
      + left. split; auto. intros k Hk. destruct (Nat.eq_dec k m) as [->|]; auto. apply IH2. lia.
      + right. exists m. split; [lia|]. split; auto.
        assert (LT : forall k, k < m -> fleb (x k) (x m) = false).
        { intros k Hk. destruct (Px k ltac:(lia)) as [Pk Lk]. destruct (fleb (x k) (x m)) eqn:Q2; auto.
          rewrite (T top (x k) (x m)) in Q; auto. }
        split; auto. intros k Hk. destruct (Nat.eq_dec k m) as [->|]; [apply R; auto|].
        destruct (Px k ltac:(lia)) as [Pk _]. destruct (To (x m) (x k) Pm Pk) as [|Q2]; auto.
        rewrite LT in Q2 by lia. discriminate.
    - destruct (Px j ltac:(lia)) as [Pj Lj]. destruct (fleb (x j) (x m)) eqn:Q.
      + right. exists j. split; [lia|]. split; auto. split; auto.
        intros k Hk. destruct (Nat.eq_dec k m) as [->|]; auto. apply IH2. lia.
      + right. exists m. split; [lia|]. split; auto.
        assert (LT : forall k, k < m -> fleb (x k) (x m) = false).
        { intros k Hk. destruct (Px k ltac:(lia)) as [Pk Lk]. destruct (fleb (x k) (x m)) eqn:Q2; auto.
          rewrite (T (x j) (x k) (x m)) in Q; auto. }
        split; auto. intros k Hk. destruct (Nat.eq_dec k m) as [->|]; [apply R; auto|].
        destruct (Px k ltac:(lia)) as [Pk _]. destruct (To (x m) (x k) Pm Pk) as [|Q2]; auto.
        rewrite LT in Q2 by lia. discriminate. }
  destruct (G n ltac:(lia)) as [[G1 G2]|(j & Hj & G1 & G2 & G3)]; cbv zeta in *; rewrite G1.
  - exists 0. split; [lia|]. split; auto. destruct (Px 0 ltac:(lia)) as [P0 L0]. split; [|lia].
    intros k Hk. destruct (Px k Hk) as [Pk _]. eapply T; [| | |exact L0|]; auto.
  - exists j. simpl. auto.
Qed.

End Frontend.
