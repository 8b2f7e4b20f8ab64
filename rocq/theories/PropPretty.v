(** Property C49: what the pretty printer prints. *)
From Coq Require Import Ascii String.
From Verif Require Import Base Scalar Tensor Types Sym Phi Den Term PhiTerm SpecPhi Lining Outline OutlinePass Soa Pretty Lines Sample.

Section Props.
Context {FO : FloatOps} {EX : Externs}.

(** The width, the indentation and the column only change blanks and newlines:
    the text is that of the pieces. *)
Theorem C49_layout (r : repr) (width indent after : nat) t :
  render r width indent after = Ok t -> dense t = dense (pieces r).
Proof. apply render_dense. Qed.

Theorem C49_width (N : names) (fuel nxt : nat) (e : phi) (w i w' i' : nat) t t' :
  pretty_phi N fuel nxt e w i = Ok t -> pretty_phi N fuel nxt e w' i' = Ok t' -> dense t = dense t'.
Proof.
  unfold pretty_phi. intros H H'. apply bind_ok in H as (q & Hq & H). rewrite Hq in H'. cbn [bind] in H'.
  apply bind_ok in H as (r & Hr & H). rewrite Hr in H'. cbn [bind] in H'.
  rewrite (render_dense _ _ _ _ _ H), (render_dense _ _ _ _ _ H'). reflexivity.
Qed.

(** The text shows every part of the term, at its place: operands, bound
    symbols, operators ([parts]), whole and one after the other. *)
Theorem C49_parts (N : names) (e : phi) (par : bool) : woven (parts N e) (pieces (pretty N e par)).
Proof. apply parts_woven. Qed.

(** Every bracket is closed, and an operand has no blank outside of brackets:
    an operator of a term is never next to one of its operands' operators.
    Conditionals are the exception (see C49_where_refuted). *)
Theorem C49_brackets (N : names) (e : phi) (par : bool) :
  (forall a, tight (show_const N a)) -> (forall s, tight (show_sym N s)) -> (forall e, balanced (show_type N e)) ->
  (forall k, tight (show_axis N k)) -> (forall o, tight (show_un N o)) -> (forall o, tight (show_bin N o)) ->
  (forall e, tight (show_other N e)) ->
  balanced (pieces (pretty N e par)) /\ (conditional e = false -> tight (pieces (pretty N e true))).
Proof. intros. split; [apply pretty_balanced; auto|apply pretty_tight; auto]. Qed.

(** Printing does not fail, if no constant, symbol or unknown term is blank. *)
Theorem C49_prints (N : names) (e : phi) (par : bool) (width indent after : nat) :
  (forall a, dense (show_const N a) <> []) -> (forall s, dense (show_sym N s) <> []) -> (forall e, dense (show_other N e) <> []) ->
  exists t, render (pretty N e par) width indent after = Ok t.
Proof. intros. apply render_solid. apply pretty_ok; auto. Qed.

(** A term without [let] whose text fits in the width is printed on one line. *)
Theorem C49_fits (N : names) (e : phi) (par : bool) (width indent after : nat) :
  (forall a, dense (show_const N a) <> []) -> (forall s, dense (show_sym N s) <> []) -> (forall e, dense (show_other N e) <> []) ->
  ~ In nl (pieces (pretty N e par)) -> after + length (pieces (pretty N e par)) <= width ->
  render (pretty N e par) width indent after = Ok (pieces (pretty N e par)).
Proof. intros. apply render_fits; auto. apply pretty_ok; auto. Qed.

(** A text that comes after others is put on their last line exactly when it fits
    there, and otherwise on a line of its own, indented.  If they are empty, that line
    is the one the printer started on. *)
Theorem C49_next_line (bs : list (text * repr * text)) (prefix c suffix : text) (width indent after : nat) t lines last :
  render (RNest bs) width indent after = Ok t ->
  t ++ prefix = lines ++ last -> (lines = [] \/ last <> [] /\ exists ls, lines = ls ++ [nl]) -> ~ In nl last -> ~ In nl c -> c <> [] ->
  render (RNest (bs ++ [(prefix, RLine c, suffix)])) width indent after =
    Ok (t ++ prefix ++ if match last with [] => after | _ => length last end + length c <=? width then c ++ suffix else nl :: (repeat sp indent ++ c) ++ nl :: lstrip suffix).
Proof. apply render_next. Qed.

(** A block printed as the empty text would be an error: max() of nothing. *)
Theorem C49_blank_block_refuted : exists r, forall width indent after, render r width indent after = Err EValue.
Proof. exists (RNest [([], RLine [], [])]). reflexivity. Qed.

(** In every sequence of printings of symbols of a class, two get the same
    number exactly when they are the same symbol. *)
Theorem C49_symbols (xs ks ids ids' : list nat) (p q : nat) x y k l :
  sym_reprs xs ids = (ks, ids') -> nth_error xs p = Some x -> nth_error xs q = Some y ->
  nth_error ks p = Some k -> nth_error ks q = Some l -> (k = l <-> x = y).
Proof.
  intros H Hx Hy Hk Hl. destruct (sym_reprs_spec _ _ _ _ H) as (_ & _ & F).
  assert (G : forall p x k, nth_error xs p = Some x -> nth_error ks p = Some k -> position x ids' = Some k).
  { clear - F. induction F as [|a b xs ks Hab F IH]; intros p x k Hx Hk; destruct p; try discriminate; simpl in *; [congruence|eauto]. }
  pose proof (G _ _ _ Hx Hk) as P1. pose proof (G _ _ _ Hy Hl) as P2. split; [intros ->; eapply position_inj; eauto|intros ->; congruence].
Qed.

(** Conditionals are never put in parentheses (pprint.py:227-237):
    (if c then a else b) + 1 and if c then a else (b + 1) print the same. *)
Theorem C49_where_refuted : exists (e1 e2 : phi) (E : env) v1 v2,
  (forall N w i, exists t, pretty_phi N 10 5 e1 w i = Ok t /\ pretty_phi N 10 5 e2 w i = Ok t) /\
  den E e1 = Ok v1 /\ den E e2 = Ok v2 /\ v1 <> v2.
Proof.
  set (c := PStore (SV 0) (TScalar KBool)). set (a := PStore (SV 1) (TScalar KInt)). set (b := PStore (SV 2) (TScalar KInt)).
  exists (PBin BAdd (PWhere c a b) (p_int 1)), (PWhere c a (PBin BAdd b (p_int 1))).
  exists (upd (upd (upd empty_env (SV 0) (vscalar (SB true))) (SV 1) (vint 7)) (SV 2) (vint 8)). eexists. eexists.
  split; [|split; [vm_compute; reflexivity|split; [vm_compute; reflexivity|discriminate]]].
  assert (O : forall e, e = PBin BAdd (PWhere c a b) (p_int 1) \/ e = PWhere c a (PBin BAdd b (p_int 1)) ->
    (let* q := struct_of_arrays 10 e in outline 5 q) = Ok e) by (intros e [-> | ->]; vm_compute; reflexivity).
  intros N w i. eexists. unfold pretty_phi. split; subst a b c; unfold p_int in *.
  - pose proof (O _ (or_introl eq_refl)) as Q. apply bind_ok in Q as (q & -> & Q). cbn [bind]. rewrite Q. cbn [bind]. reflexivity.
  - pose proof (O _ (or_intror eq_refl)) as Q. apply bind_ok in Q as (q & -> & Q). cbn [bind]. rewrite Q. cbn [bind].
    cbn [pretty render bind app sign_bin pars]. rewrite <- !app_assoc. reflexivity.
Qed.

(** let &3 = @0 + 1 in for @1[&3]. (@0, @1), printed in 80 and in 12 columns *)
Example C49_example :
  let N := mkNames (fun _ => T "1") (fun s => match s with SV 3 => T "&0" | SV _ => T "&1" | SX 0 => T "@0" | SX _ => T "@1" end)
             (fun _ => T "int") (fun _ => T "0") (fun _ => T "neg") (fun _ => T "less") (fun _ => T "?") in
  let e := PLet 3 (PBin BAdd (PStore (SX 0) (TScalar KInt)) (PConst (ascalar (SI 1))))
             (PVec 1 (PStore (SV 3) (TScalar KInt)) (PCons (PStore (SX 0) (TScalar KInt)) (PStore (SX 1) (TScalar KInt)))) in
  render (pretty N e false) 80 2 0 = Ok (T "let &0: int = @0 + 1 in" ++ [nl] ++ T "for @1[&0]. (@0, @1)") /\
  render (pretty N e false) 12 2 0 =
    Ok (T "let &0: int = " ++ [nl] ++ T "  @0 + 1" ++ [nl] ++ T "in" ++ [nl] ++ T "for @1[&0]. " ++ [nl] ++ T "  (@0, @1)" ++ [nl]) /\
  fst (sym_reprs [7; 4; 7; 9; 4] []) = [0; 1; 0; 2; 1] /\
  pieces (pretty N (PBin BMul e e) true) = T "((" ++ pieces (pretty N e false) ++ T ") * (" ++ pieces (pretty N e false) ++ T "))" /\
  (forall s, tight (show_sym N s)) /\ tight (pieces (pretty N e true)).
Proof.
  cbv zeta. split; [vm_compute; reflexivity|]. split; [vm_compute; reflexivity|]. split; [vm_compute; reflexivity|].
  split; [vm_compute; reflexivity|]. split; [|vm_compute; reflexivity]. intros [[|[|[|[|k]]]]|[|k]]; reflexivity.
Qed.

(** for @1[&0]. (@0, @1) in 20 columns and in 19; and a second block after a broken
    one, whose first line is longer than the width. *)
Example C49_fits_example :
  let N := mkNames (fun _ => T "1") (fun s => match s with SV _ => T "&0" | SX 0 => T "@0" | SX _ => T "@1" end)
             (fun _ => T "int") (fun _ => T "0") (fun _ => T "neg") (fun _ => T "less") (fun _ => T "?") in
  let e := PVec 1 (PStore (SV 3) (TScalar KInt)) (PCons (PStore (SX 0) (TScalar KInt)) (PStore (SX 1) (TScalar KInt))) in
  (forall a, dense (show_const N a) <> []) /\ (forall s, dense (show_sym N s) <> []) /\ (forall e, dense (show_other N e) <> []) /\
  pieces (pretty N e false) = T "for @1[&0]. (@0, @1)" /\ ~ In nl (pieces (pretty N e false)) /\ length (pieces (pretty N e false)) = 20 /\
  render (pretty N e false) 19 2 0 = Ok (T "for @1[&0]. " ++ [nl] ++ T "  (@0, @1)" ++ [nl]) /\
  let t := T "let &0: int = " ++ [nl] ++ T "  @0 + 1" ++ [nl] in
  render (RNest [(T "let &0: int = ", RLine (T "@0 + 1"), T " ")]) 12 2 0 = Ok t /\
  render (RNest [(T "let &0: int = ", RLine (T "@0 + 1"), T " "); (T "in ", RLine (T "&0 + &0"), [])]) 12 2 0 = Ok (t ++ T "in &0 + &0") /\
  render (RNest [([], RLine (T "&0 + &0"), [])]) 12 2 5 = Ok (T "&0 + &0") /\
  render (RNest [([], RLine (T "&0 + &0"), [])]) 12 2 6 = Ok (nl :: T "  &0 + &0" ++ [nl]).
Proof.
  cbv zeta. split; [discriminate|]. split; [intros [|[|]]; discriminate|]. split; [discriminate|]. split; [vm_compute; reflexivity|].
  split; [vm_compute; intuition discriminate|]. repeat split; vm_compute; reflexivity.
Qed.
End Props.

Print Assumptions C49_fits.
Print Assumptions C49_next_line.
Print Assumptions C49_layout.
Print Assumptions C49_width.
Print Assumptions C49_parts.
Print Assumptions C49_brackets.
Print Assumptions C49_prints.
Print Assumptions C49_blank_block_refuted.
Print Assumptions C49_symbols.
Print Assumptions C49_where_refuted.
