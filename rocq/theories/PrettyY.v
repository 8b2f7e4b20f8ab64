(** The pretty printer of array code: ein/debug/pprint.py:251-374. *)
From Coq Require Import Ascii String.
From Verif Require Import Base Scalar Tensor Types Sym Phi Den Term PhiTerm SpecPhi Lining Outline OutlinePass Soa NdOps Yarr YTerm Pretty.

(** pprint.py:128-147 with [axis] *)
Definition pretty_reduce_axis (vecs : list repr) (init_type : text) (init : repr) (axis x y : text) (xy : repr) : repr :=
  RConcat [RNest [(T "reduce[id: " ++ init_type ++ T " = ", init, T ", ");
                  (T "(" ++ x ++ T ", " ++ y ++ T ") => ", xy, T ", axis=" ++ axis ++ T "]")];
           pretty_call (RLine []) vecs].

Section Pretty.
Context {FO : FloatOps}.

(** Texts of constants, variables, types, numbers, tuples of axes, element types
    and the names of operators, and of the terms the printer has no case for. *)
Record ynames : Type := mkYNames {
  ys_const : arr -> text;
  ys_var : nat -> text;
  ys_type : yarr -> text;
  ys_num : nat -> text;
  ys_axes : list nat -> text;
  ys_kind : kind -> text;
  ys_un : uop -> text;
  ys_bin : bop -> text;
  ys_where : text;
  ys_red : rop -> text;
  ys_other : yarr -> text
}.
Variable N : ynames.

(** pprint.py:251-364; the in-place mark of an operator is not printed, and
    [Concat], [Gather], [Einsum] and [Extrinsic] have no case. *)
Fixpoint ypretty (e : yarr) (par : bool) : repr :=
  let item o := match o with Some x => ypretty x false | None => RLine (T "None") end in
  match e with
  | YConst a => RLine (ys_const N a)
  | YVar x _ => RLine (ys_var N x)
  | YLet x b body => pars (pretty_let (ys_var N x) (ys_type N b) (ypretty b false) (ypretty body false)) par
  | YFold c size acc init body =>
      pars (pretty_fold (ys_var N c) (ys_type N init) (ypretty size false) (ys_var N acc) (ypretty init false) (ypretty body false)) par
  | YReduce init x y xy vecs ax =>
      pars (pretty_reduce_axis [ypretty vecs false] (ys_type N init) (ypretty init false) (ys_num N ax)
              (ys_var N x) (ys_var N y) (ypretty xy false)) par
  | YDim ax t => pretty_call (RLine (T "size[" ++ ys_num N ax ++ T "]")) [ypretty t false]
  | YUntuple k _ t => RConcat [ypretty t true; RLine (T "." ++ ys_num N k)]
  | YTuple ops => pretty_call (RLine []) (map (fun o => ypretty o false) ops)
  | YUn o a => pretty_call (RLine (ys_un N o)) [ypretty a false]
  | YBin o a b _ => pretty_call (RLine (ys_bin N o)) [ypretty a false; ypretty b false]
  | YWhere c a b => pretty_call (RLine (ys_where N)) [ypretty c false; ypretty a false; ypretty b false]
  | YRange s => pretty_call (RLine (T "range")) [ypretty s false]
  | YTranspose pi t => pretty_call (RLine (T "transpose")) [RLine (ys_axes N pi); ypretty t false]
  | YSqueeze axes t => pretty_call (RLine (T "squeeze")) [RLine (ys_axes N axes); ypretty t false]
  | YUnsqueeze axes t => pretty_call (RLine (T "unsqueeze")) [RLine (ys_axes N axes); ypretty t false]
  | YRepeat ax c t => pretty_call (RLine (T "repeat")) [RLine (ys_num N ax); ypretty c false; ypretty t false]
  | YTake t items => pretty_call (RLine (T "take")) (ypretty t false :: map item items)
  | YSlice t l r => pretty_call (RLine (T "slice")) (ypretty t false :: map item l ++ map item r)
  | YPad t l r => pretty_call (RLine (T "pad")) (ypretty t false :: map item l ++ map item r)
  | YCast k t => pretty_call (RLine (T "cast[" ++ ys_kind N k ++ T "]")) [ypretty t false]
  | YReduceAxis r ax t => pretty_call (RLine (T "reduce[" ++ ys_red N r ++ T ", axis=" ++ ys_num N ax ++ T "]")) [ypretty t false]
  | YConcat _ _ | YGather _ _ _ | YEinsum _ _ | YExt _ _ _ => RLine (ys_other N e)
  end.

(** pprint.py:373-374 *)
Definition pretty_yarr (nxt : nat) (e : yarr) (width indent : nat) : res text :=
  let* r := outline nxt e in render (ypretty r false) width indent 0.

Definition shown (o : option yarr) : text := match o with Some x => pieces (ypretty x false) | None => T "None" end.
Definition ysaid (par : bool) (e : yarr) : text := pieces (ypretty e par).

(** What the text of a term has to show, in this order. *)
Definition yparts (e : yarr) : list text :=
  match e with
  | YConst a => [ys_const N a]
  | YVar x _ => [ys_var N x]
  | YLet x b body => [ys_var N x; ys_type N b; ysaid false b; ysaid false body]
  | YFold c n a z b => [ys_var N c; ysaid false n; ys_var N a; ys_type N z; ysaid false z; ysaid false b]
  | YReduce z x y b v k => [ys_type N z; ysaid false z; ys_var N x; ys_var N y; ysaid false b; ys_num N k; ysaid false v]
  | YDim k t => [ys_num N k; ysaid false t]
  | YUntuple k _ t => [ysaid true t; ys_num N k]
  | YTuple ops => map (ysaid false) ops
  | YUn o a => [ys_un N o; ysaid false a]
  | YBin o a b _ => [ys_bin N o; ysaid false a; ysaid false b]
  | YWhere c a b => [ys_where N; ysaid false c; ysaid false a; ysaid false b]
  | YRange s => [T "range"; ysaid false s]
  | YTranspose pi t => [T "transpose"; ys_axes N pi; ysaid false t]
  | YSqueeze axes t => [T "squeeze"; ys_axes N axes; ysaid false t]
  | YUnsqueeze axes t => [T "unsqueeze"; ys_axes N axes; ysaid false t]
  | YRepeat k c t => [T "repeat"; ys_num N k; ysaid false c; ysaid false t]
  | YTake t items => T "take" :: ysaid false t :: map shown items
  | YSlice t l r => T "slice" :: ysaid false t :: map shown l ++ map shown r
  | YPad t l r => T "pad" :: ysaid false t :: map shown l ++ map shown r
  | YCast k t => [T "cast"; ys_kind N k; ysaid false t]
  | YReduceAxis r k t => [T "reduce"; ys_red N r; ys_num N k; ysaid false t]
  | YConcat _ _ | YGather _ _ _ | YEinsum _ _ | YExt _ _ _ => [ys_other N e]
  end.

Local Ltac weave :=
  cbn [pieces flat_map fst snd map call_blocks length Nat.eqb Nat.add Nat.ltb Nat.leb]; rewrite <- ?app_assoc;
  repeat first [apply woven_end | simple apply woven_now | simple apply woven_pre].

Lemma woven_call_all name args : woven (pieces name :: map pieces args) (pieces (pretty_call name args)).
Proof. unfold pretty_call. cbn [pieces flat_map]. apply woven_now, woven_post, woven_call. Qed.

Lemma yparts_woven e par : woven (yparts e) (ysaid par e).
Proof.
  assert (M : forall l, map shown l = map pieces (map (fun o => match o with Some x => ypretty x false | None => RLine (T "None") end) l)).
  { intros l. rewrite map_map. apply map_ext. intros [x|]; reflexivity. }
  unfold ysaid. destruct e; cbn [yparts ypretty]; try apply woven_pars; unfold ysaid.
  all: rewrite ?M.
  all: try (match goal with |- woven _ (pieces (pretty_call ?n ?a)) =>
    first [exact (woven_call_all n a) | rewrite <- map_app; exact (woven_call_all n a)] end).
  all: unfold pretty_let, pretty_fold, pretty_reduce_axis, pretty_call.
  all: try (rewrite <- (app_nil_r (pieces _)); solve [weave]).
  all: try solve [weave].
  - change (T "reduce[") with (T "reduce" ++ T "["). weave.
  - change (T "cast[") with (T "cast" ++ T "["). weave.
  - cbn [pieces flat_map app]. rewrite app_nil_r. rewrite <- (map_map (fun o => ypretty o false) pieces).
    apply woven_call.
Qed.
End Pretty.

(** * Printing does not fail, unless there is an empty tuple *)

Section Total.
Context {FO : FloatOps}.

(** No node is a tuple without components. *)
Fixpoint no_empty (e : yarr) : Prop :=
  let opt o := match o with Some x => no_empty x | None => True end in
  match e with
  | YTuple ops => ops <> [] /\ fold_right and True (map no_empty ops)
  | YConst _ | YVar _ _ | YConcat _ _ | YGather _ _ _ | YEinsum _ _ | YExt _ _ _ => True
  | YLet _ a b | YRepeat _ a b | YBin _ a b _ => no_empty a /\ no_empty b
  | YDim _ t | YRange t | YTranspose _ t | YSqueeze _ t | YUnsqueeze _ t | YReduceAxis _ _ t | YCast _ t | YUn _ t | YUntuple _ _ t => no_empty t
  | YWhere a b c | YFold _ a _ b c | YReduce a _ _ b c _ => no_empty a /\ no_empty b /\ no_empty c
  | YTake t l => no_empty t /\ fold_right and True (map opt l)
  | YSlice t l r | YPad t l r => no_empty t /\ fold_right and True (map opt l) /\ fold_right and True (map opt r)
  end.

Variable N : ynames.
Hypothesis VC : forall a, visible (ys_const N a).
Hypothesis VV : forall x, visible (ys_var N x).
Hypothesis VN : forall k, visible (ys_num N k).
Hypothesis VA : forall l, visible (ys_axes N l).
Hypothesis VO : forall e, visible (ys_other N e).

Definition fine (r : repr) : Prop := visible (pieces r) /\ solid r.

Lemma call_fine n args : solid n -> args <> [] -> Forall fine args -> fine (pretty_call n args).
Proof. intros S NE F. split; [apply call_visible; auto|apply call_solid; auto]. Qed.

Lemma all_fine (P : yarr -> Prop) ops :
  Forall (fun e => forall par, P e -> fine (ypretty N e par)) ops -> fold_right and True (map P ops) ->
  Forall fine (map (fun o => ypretty N o false) ops).
Proof. induction 1 as [|e l He _ IH]; simpl; [constructor|]. intros [H1 H2]. constructor; auto. Qed.

Lemma items_fine l :
  Forall (oall (fun e => forall par, no_empty e -> fine (ypretty N e par))) l ->
  fold_right and True (map (fun o => match o with Some x => no_empty x | None => True end) l) ->
  Forall fine (map (fun o => match o with Some x => ypretty N x false | None => RLine (T "None") end) l).
Proof.
  induction 1 as [|[e|] l He _ IH]; simpl; [constructor| |]; intros [H1 H2]; constructor; auto. split; [discriminate|exact I].
Qed.

Lemma ypretty_fine (e : yarr) : forall par, no_empty e -> fine (ypretty N e par).
Proof.
  induction e using yarr_ind'; intros par NE; cbn [ypretty]; cbn [no_empty] in NE.
  all: try (split; [auto|exact I]; fail).
  all: try (match type of NE with _ /\ _ /\ _ => destruct NE as (N1 & N2 & N3) | _ /\ _ => destruct NE as [N1 N2] end).
  all: try (apply call_fine; [exact I|discriminate|]).
  all: try (repeat constructor; solve [apply IHe; auto|apply IHe1; auto|apply IHe2; auto|apply IHe3; auto|cbn [pieces]; auto]).
  all: try (apply pars_ok).
  - destruct (IHe1 false N1), (IHe2 false N2). split; [discriminate|]. simpl. auto.
  - constructor; [apply IHe; auto|]. apply items_fine; auto.
  - constructor; [apply IHe; auto|]. apply Forall_app. split; apply items_fine; auto.
  - constructor; [apply IHe; auto|]. apply Forall_app. split; apply items_fine; auto.
  - destruct (IHe1 false N1), (IHe2 false N2), (IHe3 false N3). split; [discriminate|]. simpl. auto 8.
  - destruct (IHe1 false N1), (IHe2 false N2), (IHe3 false N3). split; [discriminate|]. simpl. auto 8.
  - apply call_fine; [exact I|destruct ops; simpl; congruence|]. eapply all_fine; eauto.
  - destruct (IHe true NE). split; [|simpl; auto]. cbn [pieces flat_map]. apply visible_app. auto.
Qed.
End Total.

(** * Brackets *)
Section Brackets.
Context {FO : FloatOps}.
Variable N : ynames.
Hypothesis TC : forall a, tight (ys_const N a).
Hypothesis TV : forall x, tight (ys_var N x).
Hypothesis TT : forall e, balanced (ys_type N e).
Hypothesis TN : forall k, tight (ys_num N k).
Hypothesis TA : forall l, tight (ys_axes N l).
Hypothesis TK : forall k, tight (ys_kind N k).
Hypothesis TU : forall o, tight (ys_un N o).
Hypothesis TB : forall o, tight (ys_bin N o).
Hypothesis TW : tight (ys_where N).
Hypothesis TR : forall r, tight (ys_red N r).
Hypothesis TO : forall e, tight (ys_other N e).

Local Ltac leaf := first [assumption | apply TT
  | apply tight_balanced; first [apply TC|apply TV|apply TN|apply TA|apply TK|apply TU|apply TB|apply TW|apply TR|apply TO]
  | match goal with H : forall par, balanced _ |- _ => apply H end
  | apply call_blocks_balanced; repeat constructor; match goal with H : forall par, balanced _ |- _ => apply H end
  | apply call_blocks_balanced; assumption].
Local Ltac run :=
  unfold balanced; rewrite <- ?app_assoc;
  repeat (rewrite scan_app; match goal with |- context [match scan ?b ?d ?s with _ => _ end] =>
    let H := fresh in
    first [assert (H : scan b d s = Some d) by (apply balanced_any; leaf)
          | let r := eval vm_compute in (scan b d s) in assert (H : scan b d s = r) by reflexivity];
    rewrite H; clear H; cbv beta iota end);
  first [reflexivity | apply balanced_any; leaf].

Lemma call_tight_y n args : tight (pieces n) -> Forall (fun r => balanced (pieces r)) args -> tight (pieces (pretty_call n args)).
Proof.
  intros H F. unfold pretty_call. cbn [pieces flat_map]. rewrite app_nil_r. apply tight_app; auto.
  destruct args; [reflexivity|]. apply call_brackets; auto. discriminate.
Qed.

Lemma items_balanced l :
  Forall (oall (fun e => (forall par, balanced (pieces (ypretty N e par))) /\ tight (pieces (ypretty N e true)))) l ->
  Forall (fun r => balanced (pieces r)) (map (fun o => match o with Some x => ypretty N x false | None => RLine (T "None") end) l).
Proof.
  induction 1 as [|o l Ho _ IH]; cbn [map]; [constructor|]. constructor; [|exact IH].
  destruct o; [apply Ho|reflexivity].
Qed.

(** Names of calls. *)
Lemma name_tight f g s : tight (T f) -> T g = T f ++ T "[" -> balanced s -> tight (T g ++ s ++ T "]").
Proof. intros H -> B. rewrite <- app_assoc. apply tight_app; auto. apply (tight_brackets "[" "]"); auto. Qed.

Lemma ypretty_brackets (e : yarr) :
  (forall par, balanced (pieces (ypretty N e par))) /\ tight (pieces (ypretty N e true)).
Proof.
  assert (C : forall n args, tight (pieces n) -> Forall (fun r => balanced (pieces r)) args ->
    (bool -> balanced (pieces (pretty_call n args))) /\ tight (pieces (pretty_call n args))).
  { intros n args H F. pose proof (call_tight_y n args H F). split; auto. intros _. apply tight_balanced. auto. }
  assert (P : forall r, balanced (pieces r) -> (forall par, balanced (pieces (pars r par))) /\ tight (pieces (pars r true))).
  { intros r B. split; [intros par; apply pars_balanced; auto|apply pars_tight; auto]. }
  assert (L : forall s, tight s -> (bool -> balanced s) /\ tight s) by (intros s H; split; auto; intros _; apply tight_balanced; auto).
  induction e using yarr_ind'; cbn [ypretty].
  all: try (apply L; auto; fail).
  all: try (apply C).
  all: try apply P.
  all: cbn [pieces]; try (solve [auto | reflexivity]).
  all: try (match goal with |- Forall _ _ => repeat constructor; cbn [pieces]; solve [apply IHe|apply IHe1|apply IHe2|apply IHe3|apply tight_balanced; auto] end).
  all: unfold pretty_let, pretty_fold, pretty_reduce_axis, pretty_call; cbn [pieces flat_map fst snd].
  all: repeat match goal with IH : (forall par, balanced _) /\ _ |- _ => let K := fresh "K" in destruct IH as [? K] end.
  - run.
  - apply (name_tight "size"); try reflexivity. apply tight_balanced. auto.
  - constructor; auto. apply items_balanced. auto.
  - constructor; auto. apply Forall_app. split; apply items_balanced; auto.
  - constructor; auto. apply Forall_app. split; apply items_balanced; auto.
  - match goal with |- tight (?g ++ ?a ++ ?b ++ ?c ++ ?d) => replace (g ++ a ++ b ++ c ++ d) with (g ++ (a ++ b ++ c) ++ d) by (rewrite <- !app_assoc; reflexivity) end.
    apply (name_tight "reduce"); try reflexivity. run.
  - apply (name_tight "cast"); try reflexivity. apply tight_balanced. auto.
  - run.
  - run.
  - apply Forall_map. eapply Forall_impl; [|exact H]. intros a [Ha _]. apply Ha.
  - rewrite app_nil_r. assert (Q : tight (T "." ++ ys_num N at_)) by (apply tight_app; [reflexivity|auto]).
    apply L. apply tight_app; auto.
Qed.
End Brackets.
