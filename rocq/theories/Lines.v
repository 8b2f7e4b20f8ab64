(** When the pretty printer breaks lines: ein/debug/pprint.py:31-68. *)
From Coq Require Import Ascii String.
From Verif Require Import Base Scalar Tensor Types Sym Phi Den Term PhiTerm SpecPhi Lining Outline OutlinePass Soa Pretty.

Definition one_line (s : text) : Prop := ~ In nl s.

Lemma eqb_nl c : Ascii.eqb c nl = true -> c = nl.
Proof. apply Ascii.eqb_eq. Qed.
Lemma split_one s : one_line s -> splitlines s = match s with [] => [] | _ => [s] end.
Proof.
  unfold one_line. induction s as [|c s IH]; intros H; auto. cbn [splitlines]. destruct (Ascii.eqb c nl) eqn:Q.
  { exfalso. apply H. apply eqb_nl in Q. subst. left. reflexivity. }
  rewrite IH by (intros K; apply H; right; exact K). destruct s; reflexivity.
Qed.
Lemma split_app u l : (u = [] \/ exists u', u = u' ++ [nl]) -> one_line l -> l <> [] -> splitlines (u ++ l) = splitlines u ++ [l].
Proof.
  intros U H N. assert (L : splitlines l = [l]) by (rewrite split_one by exact H; destruct l; congruence).
  destruct U as [->|[u' ->]]; [exact L|]. rewrite <- app_assoc. cbn [app]. induction u' as [|c u' IH].
  - cbn [app splitlines]. rewrite Ascii.eqb_refl, L. reflexivity.
  - cbn [app splitlines]. rewrite IH. destruct (Ascii.eqb c nl); [reflexivity|].
    assert (S : splitlines (u' ++ [nl]) <> []).
    { destruct u' as [|d u']; cbn [app splitlines]; [rewrite Ascii.eqb_refl; discriminate|].
      destruct (Ascii.eqb d nl); [discriminate|]. destruct (splitlines (u' ++ [nl])); discriminate. }
    destruct (splitlines (u' ++ [nl])); [congruence|]. reflexivity.
Qed.
Lemma column_last u l after : (u = [] \/ exists u', u = u' ++ [nl]) -> one_line l -> l <> [] -> column (u ++ l) after = length l.
Proof.
  intros U H N. unfold column. rewrite split_app by auto. destruct (splitlines u) as [|x xs]; cbn [app]; [reflexivity|].
  rewrite last_last. reflexivity.
Qed.
Lemma column_one s after : one_line s -> column s after <= after + length s.
Proof. intros H. unfold column. rewrite split_one by exact H. destruct s; cbn [last]; lia. Qed.

Lemma one_app s t : one_line (s ++ t) <-> one_line s /\ one_line t.
Proof. unfold one_line. rewrite in_app_iff. tauto. Qed.

(** What fits on the line is put on the line. *)
Lemma render_fits (r : repr) : forall w i a, solid r -> one_line (pieces r) -> a + length (pieces r) <= w ->
  render r w i a = Ok (pieces r).
Proof.
  induction r as [c|l IH|l IH] using repr_ind'; intros w i a S O L.
  - reflexivity.
  - cbn [render]. fold (render_parts w i a). cbn [solid pieces] in *.
    assert (G : forall acc, one_line acc -> a + length acc + length (flat_map pieces l) <= w ->
      render_parts w i a l acc = Ok (acc ++ flat_map pieces l)); [|apply (G []); [intros []|change (length (@nil ascii)) with 0; lia]].
    clear L. induction IH as [|p l Hp _ IHl]; intros acc OA L; cbn [render_parts flat_map map fold_right] in *; [rewrite app_nil_r; auto|].
    fold (render_parts w i a). destruct S as [S1 S2]. apply one_app in O as [O1 O2]. rewrite app_length in L.
    pose proof (column_one acc a OA). rewrite Hp by (auto; lia). cbn [bind].
    rewrite IHl; auto; [rewrite <- app_assoc; reflexivity|apply one_app; auto|rewrite app_length; lia].
  - cbn [render]. fold (render_blocks w i a). cbn [solid pieces] in *.
    set (f := fun b : list ascii * repr * list ascii => fst (fst b) ++ pieces (snd (fst b)) ++ snd b) in *.
    assert (G : forall acc, one_line acc -> a + length acc + length (flat_map f l) <= w ->
      render_blocks w i a l acc = Ok (acc ++ flat_map f l)); [|apply (G []); [intros []|change (length (@nil ascii)) with 0; lia]].
    clear L. induction IH as [|[[p b] s] l Hp _ IHl]; intros acc OA L; cbn [render_blocks flat_map map fold_right fst snd] in *; [rewrite app_nil_r; auto|].
    fold (render_blocks w i a). destruct S as [[D S1] S2]. unfold f in O at 1. unfold f in L at 1. cbn [fst snd] in O, L.
    apply one_app in O as [O1 O2]. apply one_app in O1 as [OP O1]. apply one_app in O1 as [OB OS]. rewrite !app_length in L.
    assert (OAP : one_line (acc ++ p)) by (apply one_app; auto).
    pose proof (column_one (acc ++ p) a OAP) as C. rewrite app_length in C. rewrite Hp by (auto; lia). cbn [bind].
    unfold badness. rewrite split_one by exact OB. destruct (pieces b) as [|x xs] eqn:PB; [exfalso; apply D; reflexivity|].
    cbn [bind map fold_right]. replace (column (acc ++ p) a + length (x :: xs) <=? w) with true by (symmetry; apply Nat.leb_le; lia).
    cbn [andb length Nat.leb]. rewrite IHl; auto.
    + unfold f at 2. cbn [fst snd]. rewrite PB, <- !app_assoc. reflexivity.
    + repeat (apply one_app; split; auto).
    + rewrite !app_length. lia.
Qed.

Lemma blocks_app w i a bs bs' : forall acc t, render_blocks w i a bs acc = Ok t -> render_blocks w i a (bs ++ bs') acc = render_blocks w i a bs' t.
Proof.
  induction bs as [|[[p b] s] bs IH]; intros acc t H; cbn [render_blocks app] in *; [injection H as <-; reflexivity|].
  fold (render_blocks w i a) in *. apply bind_ok in H as (u & -> & H). cbn [bind]. apply bind_ok in H as (n & -> & H). cbn [bind].
  destruct (_ && _); auto. apply bind_ok in H as (u' & -> & H). cbn [bind]. auto.
Qed.

(** A line put after blocks stays on the last line of what is printed if it fits
    there; before anything is printed, that line has [after] characters. *)
Definition last_line (after : nat) (l : text) : nat := match l with [] => after | _ => length l end.
Lemma render_next bs p c s w i a t u l : render (RNest bs) w i a = Ok t ->
  t ++ p = u ++ l -> (u = [] \/ l <> [] /\ exists u', u = u' ++ [nl]) -> one_line l -> one_line c -> c <> [] ->
  render (RNest (bs ++ [(p, RLine c, s)])) w i a =
    Ok (t ++ p ++ if last_line a l + length c <=? w then c ++ s else nl :: (repeat sp i ++ c) ++ nl :: lstrip s).
Proof.
  intros H Q U OL OC NC. cbn [render] in *. fold (render_blocks w i a) in *. rewrite (blocks_app _ _ _ _ _ _ _ H).
  assert (C : column (u ++ l) a = last_line a l).
  { destruct l as [|d l]; [destruct U as [->|[[]]]; auto|]. apply column_last; [tauto|auto|discriminate]. }
  cbn [render_blocks render bind]. rewrite Q, C. unfold badness. rewrite split_one by exact OC.
  destruct c as [|x xs]; [congruence|]. cbn [bind map fold_right]. replace (length [x :: xs] <=? 1) with true by reflexivity. rewrite andb_true_r.
  destruct (last_line a l + length (x :: xs) <=? w); reflexivity.
Qed.
