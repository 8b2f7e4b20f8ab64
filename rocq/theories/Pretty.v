(** The pretty printer: ein/debug/pprint.py:12-248, 367-370, and the names of symbols,
    ein/symbols.py:4-20. *)
From Coq Require Import Ascii String.
From Verif Require Import Base Scalar Tensor Types Sym Phi Den Term PhiTerm SpecPhi Lining Outline OutlinePass Soa.

(** Text is a list of characters; of the line boundaries of [str.splitlines]
    only the newline occurs in what the printer puts together. *)
Definition text : Type := list ascii.
Definition T (s : string) : text := list_ascii_of_string s.
Definition nl : ascii := "010"%char.
Definition sp : ascii := " "%char.

(** [str.splitlines] *)
Fixpoint splitlines (s : text) : list text :=
  match s with
  | [] => []
  | c :: s => if Ascii.eqb c nl then [] :: splitlines s
              else match splitlines s with [] => [[c]] | l :: ls => (c :: l) :: ls end
  end.

(** [s.lstrip(" ")] *)
Fixpoint lstrip (s : text) : text :=
  match s with
  | c :: s' => if Ascii.eqb c sp then lstrip s' else s
  | [] => []
  end.

(** ["\n".join(" " * indent + ln for ln in lines)] *)
Fixpoint join_indented (indent : nat) (ls : list text) : text :=
  match ls with
  | [] => []
  | [l] => repeat sp indent ++ l
  | l :: ls => repeat sp indent ++ l ++ nl :: join_indented indent ls
  end.

(** pprint.py:12-43 *)
Inductive repr : Type :=
| RLine (content : text)
| RConcat (parts : list repr)
| RNest (blocks : list (text * repr * text)).

(** The length of the last line of [s], or [after] when there is none
    (pprint.py:37, 50). *)
Definition column (s : text) (after : nat) : nat :=
  match splitlines s with [] => after | l :: ls => length (last ls l) end.

(** pprint.py:52-55; [max] of no lines is a ValueError. *)
Definition badness (start : nat) (sub : text) : res nat :=
  match splitlines sub with
  | [] => Err EValue
  | l :: ls => Ok (fold_right Nat.max (start + length l) (map (@length _) ls))
  end.

(** pprint.py:19-68 *)
Fixpoint render (r : repr) (width indent after : nat) : res text :=
  match r with
  | RLine c => Ok c
  | RConcat parts =>
      (fix go parts result := match parts with
       | [] => Ok result
       | p :: parts => let* t := render p width indent (column result after) in go parts (result ++ t)
       end) parts []
  | RNest blocks =>
      (fix go blocks result := match blocks with
       | [] => Ok result
       | (prefix, block, suffix) :: blocks =>
           let start := column (result ++ prefix) after in
           let* sub := render block width indent start in
           let* bad := badness start sub in
           if (bad <=? width) && (length (splitlines sub) <=? 1)
           then go blocks (result ++ prefix ++ sub ++ suffix)
           else let* sub := render block width indent (start + indent) in
                go blocks (result ++ prefix ++ nl :: join_indented indent (splitlines sub) ++ nl :: lstrip suffix)
       end) blocks []
  end.

(** pprint.py:78-79 *)
Definition pars (r : repr) (par : bool) : repr := if par then RConcat [RLine (T "("); r; RLine (T ")")] else r.

(** pprint.py:82-95 *)
Fixpoint call_blocks (n i : nat) (args : list repr) : list (text * repr * text) :=
  match args with
  | [] => []
  | a :: args => (if i =? 0 then T "(" else T ", ", a, if i + 1 <? n then [] else T ")") :: call_blocks n (S i) args
  end.
Definition pretty_call (name : repr) (args : list repr) : repr :=
  RConcat [name; RNest (call_blocks (length args) 0 args)].

(** pprint.py:98-113 *)
Definition pretty_let (symbol bound_type : text) (bound body : repr) : repr :=
  RConcat [RNest [(T "let " ++ symbol ++ T ": " ++ bound_type ++ T " = ", bound, T " ")]; RLine (T "in" ++ [nl]); body].

(** pprint.py:116-125 *)
Definition pretty_fold (counter acc_type : text) (size : repr) (acc : text) (init body : repr) : repr :=
  RNest [(T "fold " ++ counter ++ T "[", size, T "]"); (T " init " ++ acc ++ T ": " ++ acc_type ++ T " = ", init, []);
         (T " by " ++ acc ++ T " => ", body, [])].

(** pprint.py:128-147 without [axis], as for phi terms *)
Definition pretty_reduce (vecs : list repr) (init_type : text) (init : repr) (x y : text) (xy : repr) : repr :=
  RConcat [RNest [(T "reduce[id: " ++ init_type ++ T " = ", init, T ", "); (T "(" ++ x ++ T ", " ++ y ++ T ") => ", xy, T "]")];
           pretty_call (RLine []) vecs].

Section Pretty.
Context {FO : FloatOps}.

(** Texts of constants, symbols, types and operators, and of the terms the
    printer has no case for. *)
Record names : Type := mkNames {
  show_const : arr -> text;
  show_sym : sym -> text;
  show_type : phi -> text;
  show_axis : nat -> text;
  show_un : uop -> text;
  show_bin : bop -> text;
  show_other : phi -> text
}.
Variable N : names.

(** pprint.py:70-75 *)
Definition sign_un (o : uop) : option text := match o with UNeg => Some (T "-") | _ => None end.
Definition sign_bin (o : bop) : option text :=
  match o with BAdd => Some (T "+") | BMul => Some (T "*") | BSub => Some (T "-") | _ => None end.

(** pprint.py:183-192 *)
Fixpoint separated (ts : list repr) : list repr :=
  match ts with
  | [] => []
  | [t] => [t]
  | t :: ts => t :: RLine (T " = ") :: separated ts
  end.

(** pprint.py:150-248 *)
Fixpoint pretty (e : phi) (par : bool) : repr :=
  match e with
  | PConst a => RLine (show_const N a)
  | PStore s _ => RLine (show_sym N s)
  | PLet x b body => pars (pretty_let (show_sym N (SV x)) (show_type N b) (pretty b false) (pretty body false)) par
  | PVec i size body =>
      pars (RNest [(T "for " ++ show_sym N (SX i) ++ T "[", pretty size false, T "]. "); ([], pretty body false, [])]) par
  | PGet v item => RConcat [pretty v true; RLine (T "["); pretty item false; RLine (T "]")]
  | PDim t axis => pretty_call (RLine (T "size[" ++ show_axis N axis ++ T "]")) [pretty t false]
  | PAssertEq t ts => RConcat (RLine (T "{") :: separated (pretty t false :: map (fun t => pretty t false) ts) ++ [RLine (T "}")])
  | PFold c size acc init body =>
      pars (pretty_fold (show_sym N (SV c)) (show_type N init) (pretty size false) (show_sym N (SV acc)) (pretty init false) (pretty body false)) par
  | PReduce init x y xy vecs =>
      pars (pretty_reduce (map (fun v => pretty v false) vecs) (show_type N init) (pretty init false)
              (show_sym N (SV x)) (show_sym N (SV y)) (pretty xy false)) par
  | PFirst t => pretty_call (RLine (T "fst")) [pretty t false]
  | PSecond t => pretty_call (RLine (T "snd")) [pretty t false]
  | PCons a b => pretty_call (RLine []) [pretty a false; pretty b false]
  | PWhere c a b =>
      RConcat [RLine (T "if "); pretty c false; RLine (T " then "); pretty a false; RLine (T " else "); pretty b false]
  | PUn o a =>
      match sign_un o with
      | Some s => pars (RConcat [RLine s; pretty a true]) par
      | None => pretty_call (RLine (show_un N o)) [pretty a true]
      end
  | PBin o a b =>
      match sign_bin o with
      | Some s => pars (RConcat [pretty a true; RLine (T " " ++ s ++ T " "); pretty b true]) par
      | None => pretty_call (RLine (show_bin N o)) [pretty a true; pretty b true]
      end
  | PConcat _ _ | PExt _ _ _ => RLine (show_other N e)
  end.

(** pprint.py:367-370 *)
Definition pretty_phi (fuel nxt : nat) (e : phi) (width indent : nat) : res text :=
  let* q := struct_of_arrays fuel e in
  let* r := outline nxt q in
  render (pretty r false) width indent 0.
End Pretty.

(** * Symbols *)

(** symbols.py:8-11 [__repr__]: the dictionary [_ids] of a class as the list of
    its keys in the order of insertion; the number is the position. *)
Fixpoint position (x : nat) (l : list nat) : option nat :=
  match l with
  | [] => None
  | y :: l => if x =? y then Some 0 else option_map S (position x l)
  end.
Definition sym_repr (x : nat) (ids : list nat) : nat * list nat :=
  match position x ids with
  | Some k => (k, ids)
  | None => (length ids, ids ++ [x])
  end.

(** The numbers printed by a sequence of calls. *)
Fixpoint sym_reprs (xs ids : list nat) : list nat * list nat :=
  match xs with
  | [] => ([], ids)
  | x :: xs => let (k, ids) := sym_repr x ids in let (ks, ids) := sym_reprs xs ids in (k :: ks, ids)
  end.

(** * What the layout keeps *)

(** The characters that are neither blanks nor newlines. *)
Definition dense (s : text) : text := filter (fun c => negb (Ascii.eqb c sp || Ascii.eqb c nl)) s.

(** All the pieces of text, one after the other. *)
Fixpoint pieces (r : repr) : text :=
  match r with
  | RLine c => c
  | RConcat parts => flat_map pieces parts
  | RNest blocks => flat_map (fun b => fst (fst b) ++ pieces (snd (fst b)) ++ snd b) blocks
  end.

(** Every nested block has a character that is not blank. *)
Fixpoint solid (r : repr) : Prop :=
  match r with
  | RLine _ => True
  | RConcat parts => fold_right and True (map solid parts)
  | RNest blocks => fold_right and True (map (fun b => dense (pieces (snd (fst b))) <> [] /\ solid (snd (fst b))) blocks)
  end.

Section RInd.
Variable P : repr -> Prop.
Hypothesis HL : forall c, P (RLine c).
Hypothesis HC : forall l, Forall P l -> P (RConcat l).
Hypothesis HN : forall l, Forall (fun b => P (snd (fst b))) l -> P (RNest l).
Fixpoint repr_ind' (r : repr) : P r :=
  match r with
  | RLine c => HL c
  | RConcat l => HC l ((fix all l : Forall P l :=
      match l with [] => Forall_nil _ | x :: l => Forall_cons x (repr_ind' x) (all l) end) l)
  | RNest l => HN l ((fix all l : Forall (fun b => P (snd (fst b))) l :=
      match l with [] => Forall_nil _ | x :: l => Forall_cons x (repr_ind' (snd (fst x))) (all l) end) l)
  end.
End RInd.

Definition render_parts width indent after := (fix go parts result := match parts with
       | [] => Ok result
       | p :: parts => let* t := render p width indent (column result after) in go parts (result ++ t)
       end).
Definition render_blocks width indent after := (fix go (blocks : list (text * repr * text)) result := match blocks with
       | [] => Ok result
       | (prefix, block, suffix) :: blocks =>
           let start := column (result ++ prefix) after in
           let* sub := render block width indent start in
           let* bad := badness start sub in
           if (bad <=? width) && (length (splitlines sub) <=? 1)
           then go blocks (result ++ prefix ++ sub ++ suffix)
           else let* sub := render block width indent (start + indent) in
                go blocks (result ++ prefix ++ nl :: join_indented indent (splitlines sub) ++ nl :: lstrip suffix)
       end).

Lemma dense_app s t : dense (s ++ t) = dense s ++ dense t.
Proof. apply filter_app. Qed.

Lemma dense_nl s : dense (nl :: s) = dense s.
Proof. reflexivity. Qed.

Lemma dense_blanks n : dense (repeat sp n) = [].
Proof. induction n; simpl; auto. Qed.

Lemma dense_lstrip s : dense (lstrip s) = dense s.
Proof.
  induction s as [|c s IH]; auto. cbn [lstrip]. destruct (Ascii.eqb c sp) eqn:Q; auto. rewrite IH.
  unfold dense at 2. cbn [filter]. rewrite Q. reflexivity.
Qed.

Lemma dense_join n s : dense (join_indented n (splitlines s)) = dense s.
Proof.
  assert (G : forall l ls, dense (join_indented n (l :: ls)) = dense l ++ dense (join_indented n ls)).
  { intros l ls. destruct ls; cbn [join_indented]; rewrite !dense_app, dense_blanks; [rewrite app_nil_r|]; reflexivity. }
  induction s as [|c s IH]; auto. cbn [splitlines]. destruct (Ascii.eqb c nl) eqn:Q.
  - rewrite G, IH. unfold dense at 3. cbn [filter]. rewrite Q, orb_true_r. reflexivity.
  - destruct (splitlines s) as [|l ls] eqn:L.
    + rewrite G. change (c :: s) with ([c] ++ s). rewrite dense_app, <- IH. reflexivity.
    + rewrite G. change (c :: l) with ([c] ++ l). change (c :: s) with ([c] ++ s). rewrite !dense_app, <- IH, G, app_assoc. reflexivity.
Qed.

Lemma render_dense (r : repr) : forall w i a t, render r w i a = Ok t -> dense t = dense (pieces r).
Proof.
  induction r as [c|l IH|l IH] using repr_ind'; intros w i a t H.
  - injection H as <-. reflexivity.
  - cbn [render] in H. fold (render_parts w i a) in H. cbn [pieces].
    change (dense (flat_map pieces l)) with (dense [] ++ dense (flat_map pieces l)). revert H. generalize (@nil ascii) at 1 2.
    induction IH as [|p l Hp _ IHl]; intros acc H; cbn [render_parts flat_map] in *; [injection H as <-; simpl; rewrite app_nil_r; auto|].
    fold (render_parts w i a) in H. apply bind_ok in H as (u & Hu & H). rewrite (IHl _ H), !dense_app, (Hp _ _ _ _ Hu), app_assoc. reflexivity.
  - cbn [render] in H. fold (render_blocks w i a) in H. cbn [pieces].
    match goal with |- _ = dense ?x => change (dense x) with (dense [] ++ dense x) end. revert H. generalize (@nil ascii) at 1 2.
    induction IH as [|[[p b] s] l Hp _ IHl]; intros acc H; cbn [render_blocks flat_map fst snd] in *; [injection H as <-; simpl; rewrite app_nil_r; auto|].
    fold (render_blocks w i a) in H. apply bind_ok in H as (u & Hu & H). apply bind_ok in H as (bad & _ & H).
    destruct (_ && _).
    + rewrite (IHl _ H), !dense_app, (Hp _ _ _ _ Hu), !app_assoc. reflexivity.
    + apply bind_ok in H as (u' & Hu' & H). rewrite (IHl _ H), !dense_app, !dense_nl, !dense_app, dense_nl, dense_join, dense_lstrip.
      rewrite (Hp _ _ _ _ Hu'), !app_assoc. reflexivity.
Qed.

Lemma render_solid (r : repr) : forall w i a, solid r -> exists t, render r w i a = Ok t.
Proof.
  induction r as [c|l IH|l IH] using repr_ind'; intros w i a H.
  - simpl. eauto.
  - cbn [render]. fold (render_parts w i a). cbn [solid] in H. generalize (@nil ascii).
    induction IH as [|p l Hp _ IHl]; intros acc; cbn [render_parts]; eauto. fold (render_parts w i a). destruct H as [H1 H2].
    destruct (Hp w i (column acc a) H1) as [t ->]. cbn [bind]. auto.
  - cbn [render]. fold (render_blocks w i a). cbn [solid] in H. generalize (@nil ascii).
    induction IH as [|[[p b] s] l Hp _ IHl]; intros acc; cbn [render_blocks]; eauto. fold (render_blocks w i a). destruct H as [[N H1] H2]. cbn [fst snd] in *.
    destruct (Hp w i (column (acc ++ p) a) H1) as [t Ht]. rewrite Ht. cbn [bind].
    assert (exists n, badness (column (acc ++ p) a) t = Ok n) as [n Hn].
    { pose proof (render_dense _ _ _ _ _ Ht) as D. unfold badness. destruct (splitlines t) eqn:L; [|eauto]. exfalso. apply N. rewrite <- D.
      destruct t as [|c t]; auto. cbn [splitlines] in L. destruct (Ascii.eqb c nl); [discriminate|]. destruct (splitlines t); discriminate. }
    rewrite Hn. cbn [bind]. destruct (_ && _); auto.
    destruct (Hp w i (column (acc ++ p) a + i) H1) as [t' Ht']. rewrite Ht'. cbn [bind]. auto.
Qed.

(** Every term prints. *)
Definition visible (s : text) : Prop := dense s <> [].

Lemma visible_app s t : visible s \/ visible t -> visible (s ++ t).
Proof. unfold visible. rewrite dense_app. intros [H|H] Q; apply app_eq_nil in Q; tauto. Qed.

Lemma call_solid n args : solid n -> Forall (fun r => visible (pieces r) /\ solid r) args -> solid (pretty_call n args).
Proof.
  intros Hn F. unfold pretty_call. cbn [solid map fold_right]. split; auto. split; auto. generalize (length args) 0. intros k.
  induction F as [|r args [V S] _ IH]; intros i; cbn [call_blocks map fold_right fst snd]; auto.
Qed.

Lemma call_visible n args : visible (pieces n) \/ args <> [] -> visible (pieces (pretty_call n args)).
Proof.
  intros H. unfold pretty_call. cbn [pieces flat_map]. apply visible_app. destruct H as [H|H]; auto. right.
  destruct args as [|a args]; [congruence|]. cbn [call_blocks flat_map fst snd Nat.eqb]. rewrite app_nil_r. do 2 (apply visible_app; left). discriminate.
Qed.

Section Total.
Context {FO : FloatOps}.
Variable N : names.
Hypothesis VC : forall a, visible (show_const N a).
Hypothesis VS : forall s, visible (show_sym N s).
Hypothesis VO : forall e, visible (show_other N e).

Lemma pars_ok r par : visible (pieces r) /\ solid r -> visible (pieces (pars r par)) /\ solid (pars r par).
Proof.
  intros [V S]. destruct par; simpl; auto. split; [discriminate|auto].
Qed.

Lemma separated_all (P : repr -> Prop) ts : P (RLine (T " = ")) -> Forall P ts -> Forall P (separated ts).
Proof.
  intros H F. induction F as [|t ts Ht F IH]; simpl; auto. destruct ts; auto.
Qed.

Lemma ands_all {X} (P : X -> Prop) l : Forall P l -> fold_right and True (map P l).
Proof. induction 1; simpl; auto. Qed.

Lemma pretty_ok (e : phi) : forall par, visible (pieces (pretty N e par)) /\ solid (pretty N e par).
Proof.
  induction e using phi_ind'; intros par; cbn [pretty].
  - simpl. auto.
  - simpl. auto.
  - apply pars_ok. destruct (IHe1 false) as [V1 S1], (IHe2 false) as [V2 S2]. split; [discriminate|]. simpl. auto.
  - destruct (IHe false) as [V1 S1]. split; [discriminate|]. cbn [solid map fold_right]. split; [exact I|]. apply ands_all.
    apply Forall_app. split; [|repeat constructor]. apply separated_all; [exact I|]. constructor; auto.
    apply Forall_map. eapply Forall_impl; [|exact H]. intros a Ha. apply Ha.
  - split; [apply call_visible; auto; right; discriminate|]. apply call_solid; [exact I|]. repeat constructor; apply IHe.
  - destruct (IHe1 true) as [V1 S1], (IHe2 false) as [V2 S2]. split; [|simpl; auto].
    cbn [pieces flat_map]. apply visible_app. auto.
  - split; [apply call_visible; right; discriminate|]. apply call_solid; [exact I|]. repeat constructor; solve [apply IHe1|apply IHe2].
  - split; [apply call_visible; left; discriminate|]. apply call_solid; [exact I|]. repeat constructor; apply IHe.
  - split; [apply call_visible; left; discriminate|]. apply call_solid; [exact I|]. repeat constructor; apply IHe.
  - apply pars_ok. destruct (IHe1 false) as [V1 S1], (IHe2 false) as [V2 S2]. split; [discriminate|]. simpl. auto.
  - apply pars_ok. destruct (IHe1 false) as [V1 S1], (IHe2 false) as [V2 S2], (IHe3 false) as [V3 S3]. split; [discriminate|]. simpl. auto 8.
  - apply pars_ok. destruct (IHe1 false) as [V1 S1], (IHe2 false) as [V2 S2]. split; [discriminate|].
    split; [simpl; auto|]. split; [|exact I]. apply call_solid; [exact I|]. apply Forall_map. eapply Forall_impl; [|exact H]. intros a Ha. apply Ha.
  - destruct (sign_un o) eqn:Q.
    + apply pars_ok. destruct (IHe true) as [V1 S1]. split; [|simpl; auto]. cbn [pieces flat_map]. apply visible_app. right. apply visible_app. auto.
    + split; [apply call_visible; right; discriminate|]. apply call_solid; [exact I|]. repeat constructor; apply IHe.
  - destruct (sign_bin o) eqn:Q.
    + apply pars_ok. destruct (IHe1 true) as [V1 S1], (IHe2 true) as [V2 S2]. split; [|simpl; auto]. cbn [pieces flat_map]. apply visible_app. auto.
    + split; [apply call_visible; right; discriminate|]. apply call_solid; [exact I|]. repeat constructor; solve [apply IHe1|apply IHe2].
  - destruct (IHe1 false) as [V1 S1], (IHe2 false) as [V2 S2], (IHe3 false) as [V3 S3]. split; [discriminate|]. simpl. auto 8.
  - simpl. auto.
  - simpl. auto.
Qed.
End Total.

(** * The parts of a term are in its text *)

(** [woven ps s]: the texts [ps] occur in [s] one after the other, apart. *)
Inductive woven : list text -> text -> Prop :=
| woven_end g : woven [] g
| woven_next g p ps s : woven ps s -> woven (p :: ps) (g ++ p ++ s).

Lemma woven_pre g ps s : woven ps s -> woven ps (g ++ s).
Proof.
  intros H. destruct H as [h|h p ps s H]; [constructor|]. rewrite app_assoc. constructor. auto.
Qed.

Lemma woven_now p ps s : woven ps s -> woven (p :: ps) (p ++ s).
Proof. apply (woven_next []). Qed.

Lemma woven_post g ps s : woven ps s -> woven ps (s ++ g).
Proof.
  induction 1 as [h|h p ps s H IH]; [constructor|]. rewrite <- !app_assoc. constructor. auto.
Qed.

Lemma woven_call args : forall n i, woven (map pieces args) (flat_map (fun b => fst (fst b) ++ pieces (snd (fst b)) ++ snd b) (call_blocks n i args)).
Proof.
  induction args as [|a args IH]; intros n i; [constructor|]. cbn [call_blocks flat_map map fst snd].
  rewrite <- !app_assoc. apply woven_next, woven_pre, IH.
Qed.

Lemma woven_separated ts g : woven (map pieces ts) (flat_map pieces (separated ts) ++ g).
Proof.
  induction ts as [|t ts IH]; [constructor|]. destruct ts as [|t' ts].
  - cbn [separated flat_map map]. rewrite app_nil_r. apply woven_now. constructor.
  - cbn [separated flat_map map] in *. rewrite <- !app_assoc in *. apply woven_now, woven_pre. auto.
Qed.

Lemma woven_pars ps r par : woven ps (pieces r) -> woven ps (pieces (pars r par)).
Proof.
  destruct par; auto. intros H. cbn [pars pieces flat_map]. apply woven_pre, woven_post. auto.
Qed.

Section Parts.
Context {FO : FloatOps}.
Variable N : names.

(** What the text of a term has to show, in this order: its operands, the
    symbols it binds and its operator. *)
Definition said (par : bool) (e : phi) : text := pieces (pretty N e par).
Definition parts (e : phi) : list text :=
  match e with
  | PConst a => [show_const N a]
  | PStore s _ => [show_sym N s]
  | PLet x b body => [show_sym N (SV x); show_type N b; said false b; said false body]
  | PAssertEq t ts => said false t :: map (said false) ts
  | PDim t k => [show_axis N k; said false t]
  | PGet v i => [said true v; said false i]
  | PCons a b => [said false a; said false b]
  | PFirst t => [T "fst"; said false t]
  | PSecond t => [T "snd"; said false t]
  | PVec i n b => [show_sym N (SX i); said false n; said false b]
  | PFold c n a z b => [show_sym N (SV c); said false n; show_sym N (SV a); show_type N z; said false z; said false b]
  | PReduce z x y b vs => show_type N z :: said false z :: show_sym N (SV x) :: show_sym N (SV y) :: said false b :: map (said false) vs
  | PUn o a => [match o with UNeg => T "-" | _ => show_un N o end; said true a]
  | PBin o a b =>
      match o with
      | BAdd => [said true a; T "+"; said true b]
      | BSub => [said true a; T "-"; said true b]
      | BMul => [said true a; T "*"; said true b]
      | _ => [show_bin N o; said true a; said true b]
      end
  | PWhere c a b => [T "if"; said false c; T "then"; said false a; T "else"; said false b]
  | PConcat _ _ | PExt _ _ _ => [show_other N e]
  end.

Local Ltac weave :=
  cbn [pieces flat_map fst snd map call_blocks length Nat.eqb Nat.add Nat.ltb Nat.leb]; rewrite <- ?app_assoc;
  repeat first [apply woven_end | simple apply woven_now | simple apply woven_pre].

Lemma parts_woven e par : woven (parts e) (said par e).
Proof.
  unfold said. destruct e; cbn [parts pretty]; try apply woven_pars; unfold said, pretty_let, pretty_fold, pretty_reduce, pretty_call.
  all: try (rewrite <- (app_nil_r (pieces _)); solve [weave]).
  all: try solve [weave].
  - cbn [pieces flat_map]. apply woven_pre. rewrite flat_map_app.
    match goal with |- woven (_ :: map _ ?l) _ => replace (map (fun e => pieces (pretty N e false)) l)
      with (map pieces (map (fun t => pretty N t false) l)) by (rewrite map_map; reflexivity) end.
    apply (woven_separated (_ :: _)).
  - cbn [pieces flat_map fst snd]. rewrite <- !app_assoc. apply woven_next. apply woven_pre, woven_now, woven_pre. do 3 apply woven_next. do 3 apply woven_pre.
    apply woven_post. replace (map (fun e => pieces (pretty N e false)) vecs)
      with (map pieces (map (fun t => pretty N t false) vecs)) by (rewrite map_map; reflexivity). apply woven_call.
  - destruct o; cbn [sign_un]; try apply woven_pars; try solve [weave].
  - destruct o; cbn [sign_bin]; try apply woven_pars; try solve [weave].
  - change (T "if ") with (T "if" ++ T " "). change (T " then ") with (T " " ++ T "then" ++ T " ").
    change (T " else ") with (T " " ++ T "else" ++ T " "). weave.
Qed.
End Parts.

(** * Brackets *)

Definition opening (c : ascii) : bool := Ascii.eqb c "("%char || Ascii.eqb c "["%char || Ascii.eqb c "{"%char.
Definition closing (c : ascii) : bool := Ascii.eqb c ")"%char || Ascii.eqb c "]"%char || Ascii.eqb c "}"%char.

(** The number of open brackets after [s], when [d] are open before it; nothing
    if a bracket is closed that is not open or, with [strict], there is a blank
    or newline outside of all brackets. *)
Fixpoint scan (strict : bool) (d : nat) (s : text) : option nat :=
  match s with
  | [] => Some d
  | c :: s =>
      if opening c then scan strict (S d) s
      else if closing c then match d with 0 => None | S d => scan strict d s end
      else if strict && (d =? 0) && (Ascii.eqb c sp || Ascii.eqb c nl) then None
      else scan strict d s
  end.
Definition balanced (s : text) : Prop := scan false 0 s = Some 0.
Definition tight (s : text) : Prop := scan true 0 s = Some 0.

Lemma scan_app b s t : forall d, scan b d (s ++ t) = match scan b d s with Some d => scan b d t | None => None end.
Proof.
  induction s as [|c s IH]; intros d; simpl; auto. destruct (opening c); auto. destruct (closing c); [destruct d; auto|].
  destruct (b && (d =? 0) && (Ascii.eqb c sp || Ascii.eqb c nl)); auto.
Qed.

Lemma scan_deep b s : forall d d' k, scan false d s = Some d' -> scan b (S k + d) s = Some (S k + d').
Proof.
  induction s as [|c s IH]; intros d d' k H; simpl in *; [injection H as <-; auto|].
  destruct (opening c). { specialize (IH (S d) d' k H). rewrite <- IH. f_equal. lia. }
  destruct (closing c). { destruct d; [discriminate|]. specialize (IH d d' k H). rewrite <- IH. f_equal. lia. }
  rewrite andb_false_r. cbn [andb]. apply (IH d d' k H).
Qed.

Lemma balanced_deep b s k : balanced s -> scan b (S k) s = Some (S k).
Proof. intros H. pose proof (scan_deep b s 0 0 k H) as Q. rewrite Nat.add_0_r in Q. exact Q. Qed.

Lemma balanced_any s k : balanced s -> scan false k s = Some k.
Proof. intros H. destruct k; auto. apply balanced_deep. auto. Qed.

Lemma tight_balanced s : tight s -> balanced s.
Proof.
  unfold tight, balanced. assert (G : forall d d', scan true d s = Some d' -> scan false d s = Some d').
  { induction s as [|c s IH]; intros d d' H; simpl in *; auto. destruct (opening c); auto. destruct (closing c); [destruct d; auto|].
    destruct ((d =? 0) && (Ascii.eqb c sp || Ascii.eqb c nl)); [discriminate|auto]. }
  auto.
Qed.

Lemma balanced_app s t : balanced s -> balanced t -> balanced (s ++ t).
Proof. unfold balanced. rewrite scan_app. intros -> H. exact H. Qed.

Lemma tight_app s t : tight s -> tight t -> tight (s ++ t).
Proof. unfold tight. rewrite scan_app. intros -> H. exact H. Qed.

(** Text in brackets. *)
Lemma tight_brackets o c s : opening o = true -> opening c = false -> closing c = true -> balanced s -> tight (o :: s ++ [c]).
Proof.
  intros H1 H2 H3 B. unfold tight. cbn [scan]. rewrite H1, scan_app, (balanced_deep true s 0 B). cbn [scan]. rewrite H2, H3. reflexivity.
Qed.

Lemma call_brackets args : Forall (fun r => balanced (pieces r)) args ->
  args <> [] -> tight (flat_map (fun b => fst (fst b) ++ pieces (snd (fst b)) ++ snd b) (call_blocks (length args) 0 args)).
Proof.
  intros F NE.
  assert (G : forall args n i, Forall (fun r => balanced (pieces r)) args -> i <> 0 -> n = i + length args -> args <> [] ->
    scan true 1 (flat_map (fun b => fst (fst b) ++ pieces (snd (fst b)) ++ snd b) (call_blocks n i args)) = Some 0).
  { clear. induction args as [|a args IH]; intros n i F Hi Hn NE; [congruence|]. inversion F as [|? ? B F']; subst.
    cbn [call_blocks flat_map fst snd]. rewrite !scan_app. destruct (i =? 0) eqn:Q; [apply Nat.eqb_eq in Q; congruence|].
    change (scan true 1 (T ", ")) with (Some 1). cbv beta iota. rewrite scan_app, (balanced_deep true _ 0 B). cbv beta iota. destruct args as [|a' args].
    - simpl. replace (i + 1 <? i + 1) with false by (symmetry; apply Nat.ltb_ge; lia). reflexivity.
    - replace (i + 1 <? i + length (a :: a' :: args)) with true by (symmetry; apply Nat.ltb_lt; simpl; lia).
      change (scan true 1 []) with (Some 1). cbv beta iota. apply IH; auto; [simpl; lia|discriminate]. }
  destruct args as [|a args]; [congruence|]. inversion F as [|? ? B F']; subst. unfold tight.
  cbn [call_blocks flat_map fst snd Nat.eqb]. rewrite !scan_app. change (scan true 0 (T "(")) with (Some 1). cbv beta iota. rewrite scan_app, (balanced_deep true _ 0 B). cbv beta iota.
  destruct args as [|a' args]; [reflexivity|].
  replace (0 + 1 <? length (a :: a' :: args)) with true by (symmetry; apply Nat.ltb_lt; simpl; lia). change (scan true 1 []) with (Some 1). cbv beta iota.
  apply G; auto; discriminate.
Qed.

Lemma call_blocks_balanced args : Forall (fun r => balanced (pieces r)) args ->
  balanced (flat_map (fun b => fst (fst b) ++ pieces (snd (fst b)) ++ snd b) (call_blocks (length args) 0 args)).
Proof.
  intros F. destruct args as [|a args]; [reflexivity|]. apply tight_balanced, call_brackets; auto. discriminate.
Qed.

Section Brackets.
Context {FO : FloatOps}.
Variable N : names.
Hypothesis TC : forall a, tight (show_const N a).
Hypothesis TS : forall s, tight (show_sym N s).
Hypothesis TT : forall e, balanced (show_type N e).
Hypothesis TA : forall k, tight (show_axis N k).
Hypothesis TU : forall o, tight (show_un N o).
Hypothesis TB : forall o, tight (show_bin N o).
Hypothesis TO : forall e, tight (show_other N e).

(** A conditional, or the array of an access, at the front. *)
Fixpoint conditional (e : phi) : bool :=
  match e with
  | PWhere _ _ _ => true
  | PGet v _ => conditional v
  | _ => false
  end.

Lemma pars_tight r : balanced (pieces r) -> tight (pieces (pars r true)).
Proof. intros B. cbn [pars pieces flat_map]. rewrite app_nil_r. apply (tight_brackets "(" ")"); auto. Qed.

Lemma pars_balanced r par : balanced (pieces r) -> balanced (pieces (pars r par)).
Proof. intros B. destruct par; auto. apply tight_balanced, pars_tight. auto. Qed.

Local Ltac leaf := first [assumption | apply TT | apply tight_balanced; first [apply TC|apply TS|apply TA|apply TU|apply TB|apply TO]
  | match goal with H : forall par, balanced _ |- _ => apply H end
  | apply call_blocks_balanced; repeat constructor; match goal with H : forall par, balanced _ |- _ => apply H end
  | apply call_blocks_balanced; assumption].
Local Ltac run :=
  unfold balanced; rewrite <- ?app_assoc;
  repeat (rewrite scan_app; match goal with |- context [match scan ?b ?d ?s with _ => _ end] =>
    let H := fresh in
    first [assert (H : scan b d s = Some d) by (apply balanced_any; leaf)
          | let r := eval vm_compute in (scan b d s) in assert (H : scan b d s = r) by reflexivity];
    rewrite H; clear H; cbv beta iota end);
  first [reflexivity | apply balanced_any; leaf].

Lemma separated_balanced rs : Forall (fun r => balanced (pieces r)) rs -> balanced (flat_map pieces (separated rs)).
Proof.
  intros F. assert (G : Forall (fun r => balanced (pieces r)) (separated rs)) by (apply separated_all; auto; reflexivity).
  induction G; cbn [flat_map]; [reflexivity|]. apply balanced_app; auto.
Qed.

Lemma pretty_balanced (e : phi) : forall par, balanced (pieces (pretty N e par)).
Proof.
  induction e using phi_ind'; intros par; cbn [pretty].
  all: try (destruct o; cbn [sign_un sign_bin]).
  all: try apply pars_balanced.
  all: unfold pretty_let, pretty_fold, pretty_reduce, pretty_call; cbn [pieces flat_map fst snd].
  all: try solve [leaf]. all: try solve [run].
  - rewrite flat_map_app. cbn [flat_map pieces]. rewrite app_nil_r.
    apply tight_balanced, (tight_brackets "{" "}"); auto. apply separated_balanced. constructor; auto.
    apply Forall_map. eapply Forall_impl; [|exact H]. intros a Ha. apply Ha.
  - assert (F : Forall (fun r => balanced (pieces r)) (map (fun v => pretty N v false) vecs)).
    { apply Forall_map. eapply Forall_impl; [|exact H]. intros a Ha. apply Ha. }
    run.
Qed.

Lemma call_tight n args : tight (pieces n) -> Forall (fun r => balanced (pieces r)) args -> args <> [] -> tight (pieces (pretty_call n args)).
Proof.
  intros H F NE. unfold pretty_call. cbn [pieces flat_map]. rewrite app_nil_r. apply tight_app; auto. apply call_brackets; auto.
Qed.

Lemma pretty_tight (e : phi) : conditional e = false -> tight (pieces (pretty N e true)).
Proof.
  induction e using phi_ind'; intros C; pose proof (pretty_balanced) as PB.
  all: try (match goal with |- tight (pieces (pretty N ?e true)) => pose proof (PB e false) as B end; cbn [pretty] in *;
    apply pars_tight; exact B).
  all: cbn [pretty]; try (destruct o; cbn [sign_un sign_bin]).
  all: try (apply call_tight; [cbn [pieces]; auto; reflexivity|repeat constructor; apply PB|discriminate]).
  all: try (cbn [pieces]; solve [auto]).
  - cbn [pieces flat_map]. rewrite flat_map_app. cbn [flat_map pieces]. rewrite app_nil_r.
    apply (tight_brackets "{" "}"); auto. apply separated_balanced. constructor; auto.
    apply Forall_map, Forall_forall. auto.
  - apply call_tight; [|repeat constructor; apply PB|discriminate]. cbn [pieces]. change (T "size[") with (T "size" ++ T "["). rewrite <- app_assoc.
    apply tight_app; [reflexivity|]. apply (tight_brackets "[" "]"); auto. apply tight_balanced. auto.
  - cbn [pieces flat_map]. rewrite app_nil_r. apply tight_app; [apply IHe1; auto|]. apply (tight_brackets "[" "]"); auto.
  - exact (pars_tight _ (PB (PUn UNeg e) false)).
  - exact (pars_tight _ (PB (PBin BAdd e1 e2) false)).
  - exact (pars_tight _ (PB (PBin BSub e1 e2) false)).
  - exact (pars_tight _ (PB (PBin BMul e1 e2) false)).
  - discriminate.
Qed.
End Brackets.

(** * Numbers of symbols *)

Lemma position_app x l l' k : position x l = Some k -> position x (l ++ l') = Some k.
Proof.
  revert k. induction l as [|y l IH]; intros k H; [discriminate|]. simpl in *. destruct (x =? y); auto.
  destruct (position x l) as [k'|]; [|discriminate]. rewrite (IH k' eq_refl). auto.
Qed.

Lemma position_last x l : position x l = None -> position x (l ++ [x]) = Some (length l).
Proof.
  induction l as [|y l IH]; simpl; intros H; [rewrite Nat.eqb_refl; reflexivity|].
  destruct (x =? y); [discriminate|]. destruct (position x l); [discriminate|]. rewrite IH; auto.
Qed.

Lemma position_inj x y l k : position x l = Some k -> position y l = Some k -> x = y.
Proof.
  revert k. induction l as [|z l IH]; intros k H1 H2; [discriminate|]. simpl in *.
  destruct (x =? z) eqn:Q1, (y =? z) eqn:Q2.
  - apply Nat.eqb_eq in Q1, Q2. congruence.
  - injection H1 as <-. destruct (position y l); discriminate.
  - injection H2 as <-. destruct (position x l); discriminate.
  - destruct (position x l) as [a|], (position y l) as [b|]; try discriminate. simpl in *. apply (IH a); congruence.
Qed.

Lemma sym_reprs_spec xs : forall ids ks ids', sym_reprs xs ids = (ks, ids') ->
  (exists l, ids' = ids ++ l) /\ length ks = length xs /\ Forall2 (fun x k => position x ids' = Some k) xs ks.
Proof.
  induction xs as [|x xs IH]; intros ids ks ids' H; simpl in H.
  - injection H as <- <-. split; [exists []; rewrite app_nil_r; auto|]. auto.
  - destruct (sym_repr x ids) as [k ids1] eqn:Q. destruct (sym_reprs xs ids1) as [ks1 ids2] eqn:Q2. injection H as <- <-.
    destruct (IH _ _ _ Q2) as ([l ->] & L & F). unfold sym_repr in Q.
    assert (P : position x ids1 = Some k /\ exists l', ids1 = ids ++ l').
    { destruct (position x ids) eqn:P; injection Q as <- <-; [split; auto; exists []; rewrite app_nil_r; auto|].
      split; [apply position_last; auto|eauto]. }
    destruct P as [P [l' ->]]. split; [exists (l' ++ l); rewrite app_assoc; auto|]. split; [simpl; auto|].
    constructor; auto. apply position_app. auto.
Qed.
