(** Boolean checkers for the side conditions of the theorems about terms, used
    to exhibit concrete programs that satisfy them. *)
From Verif Require Import Base Scalar Tensor Types Phi Den Term PhiTerm Lining Outline Dominators SpecPhi.

Section Checkers.
Context {FO : FloatOps}.

Definition nodes_of (p : phi) : list phi := fst (cse_build (psize p) ([], []) p).

Lemma nodes_of_spec p n : In n (nodes_of p) <-> sub_of n p.
Proof.
  unfold nodes_of. destruct (cse_build (psize p) ([], []) p) as [nodes order] eqn:E.
  destruct (cse_build_nodes p nodes order E) as (_ & H & _). apply H.
Qed.

Fixpoint freeb (s : sym) (e : phi) : bool :=
  let any (l : list phi) := existsb (freeb s) l in
  match e with
  | PConst _ => false
  | PStore s' _ => sym_eqb s s'
  | PLet x b body => freeb s b || (negb (sym_eqb s (SV x)) && freeb s body)
  | PAssertEq t ops => freeb s t || any ops
  | PDim t _ => freeb s t
  | PGet t i => freeb s t || freeb s i
  | PCons a b => freeb s a || freeb s b
  | PFirst t | PSecond t => freeb s t
  | PVec i size body => freeb s size || (negb (sym_eqb s (SX i)) && freeb s body)
  | PFold c size acc init body =>
      freeb s size || freeb s init ||
      (negb (sym_eqb s (SV c)) && negb (sym_eqb s (SV acc)) && freeb s body)
  | PReduce init x y xy vecs =>
      freeb s init || any vecs || (negb (sym_eqb s (SV x)) && negb (sym_eqb s (SV y)) && freeb s xy)
  | PUn _ a => freeb s a
  | PBin _ a b => freeb s a || freeb s b
  | PWhere c a b => freeb s c || freeb s a || freeb s b
  | PConcat a b => freeb s a || freeb s b
  | PExt _ _ ops => any ops
  end.

Lemma existsb_any (f : phi -> bool) (P : phi -> Prop) l :
  Forall (fun e => f e = true <-> P e) l ->
  (existsb f l = true <-> fold_right or False (map P l)).
Proof.
  induction 1 as [|x l Hx Hl IH]; simpl; [split; [discriminate|tauto]|].
  rewrite orb_true_iff, Hx, IH. tauto.
Qed.

Lemma freeb_spec s e : freeb s e = true <-> free_in s e.
Proof.
  assert (Hn : forall a b, negb (sym_eqb a b) = true <-> a <> b)
    by (intros; rewrite negb_true_iff; apply sym_eqb_neq).
  induction e using phi_ind'; simpl;
    rewrite ?orb_true_iff, ?andb_true_iff, ?Hn, ?sym_eqb_eq, ?IHe, ?IHe1, ?IHe2, ?IHe3;
    try (rewrite (existsb_any (freeb s) (free_in s)) by auto); try tauto.
  split; [discriminate|tauto].
Qed.

Definition distinctb (p : phi) : bool :=
  forallb (fun n => forallb (fun s => negb (freeb s p) &&
      forallb (fun n' => implb (smem s (captured n')) (phi_eqb n' n)) (nodes_of p))
    (captured n)) (nodes_of p).

Lemma distinctb_sound p : distinctb p = true -> distinct_binders p.
Proof.
  unfold distinctb. rewrite forallb_forall. intros H n s Hn Hs.
  specialize (H n (proj2 (nodes_of_spec p n) Hn)). rewrite forallb_forall in H.
  specialize (H s Hs). apply andb_true_iff in H as [H1 H2]. rewrite forallb_forall in H2. split.
  - rewrite <- free_in_isfree, <- freeb_spec. apply negb_true_iff in H1. congruence.
  - intros n' Hn' Hs'. specialize (H2 n' (proj2 (nodes_of_spec p n') Hn')).
    assert (Hm : smem s (captured n') = true) by (apply smem_In; auto).
    rewrite Hm in H2. simpl in H2. apply phi_eqb_eq; auto.
Qed.

Definition aboveb (nxt : nat) (p : phi) : bool :=
  forallb (fun n => forallb (fun s => match s with SV x => x <? nxt | SX _ => true end)
    (captured n ++ unwrap_symbol n)) (nodes_of p).

Lemma aboveb_sound nxt p : aboveb nxt p = true -> above nxt p.
Proof.
  unfold aboveb. rewrite forallb_forall. intros H n x Hn Hs.
  specialize (H n (proj2 (nodes_of_spec p n) Hn)). rewrite forallb_forall in H.
  specialize (H (SV x)). apply Nat.ltb_lt, H, in_app_iff.
  destruct Hs as [Hs|Hs]; [left; exact Hs|right]. destruct n; simpl in Hs; try discriminate.
  injection Hs as ->. simpl. auto.
Qed.
End Checkers.
