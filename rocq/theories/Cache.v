(** The compilation cache of ein/frontend/functions.py:12-50. *)
From Verif Require Import Base Scalar Tensor Types Sym Phi.

Section Cache.
Context {FO : FloatOps}.
(** Call arguments, results and backends are arbitrary. *)
Variables (Arg Out Backend : Type).
Variable backend_eqb : Backend -> Backend -> bool.
(** type_system.py:202-212 [type_from_ndarray] *)
Variable type_of : Arg -> res ty.
(** The traced Python function: builds an expression from argument expressions,
    drawing fresh symbols from the counter on.  It may raise. *)
Variable fun_ : nat -> list phi -> res (phi * nat).
(** STAGE_BACKENDS[backend](expr): a callable, or an exception. *)
Variable stage : Backend -> phi -> res (list (nat * Arg) -> res Out).
(** functions.py:27-32 *)
Variable declared : option (list ty).

Definition ty_eq_dec (a b : ty) : {a = b} + {a <> b}.
Proof. repeat decide equality. Defined.
Definition tys_eqb (a b : list ty) : bool := if list_eq_dec ty_eq_dec a b then true else false.

(** functions.py:34-40 *)
Definition types_from_args (args : list Arg) : res (list ty) :=
  let* ts := mapM type_of args in
  match declared with
  | Some d => if tys_eqb ts d then Ok ts else Err EType
  | None => Ok ts
  end.

(** functions.py:14-19: one fresh variable per argument type *)
Definition with_varargs (n : nat) (ts : list ty) : res (list nat * phi * nat) :=
  let vars := seq n (length ts) in
  let* r := fun_ (n + length ts) (map (fun p => PStore (SV (fst p)) (snd p)) (combine vars ts)) in
  Ok (vars, fst r, snd r).

Definition key : Type := (list ty * Backend)%type.
Definition staged : Type := (list nat * (list (nat * Arg) -> res Out))%type.
Definition key_eqb (k k' : key) : bool := tys_eqb (fst k) (fst k') && backend_eqb (snd k) (snd k').

(** The function object's cache and the global symbol counter. *)
Record state := mkState { cache : list (key * staged); counter : nat }.

Definition lookup_staged (k : key) (c : list (key * staged)) : option staged :=
  match find (fun p => key_eqb k (fst p)) c with Some p => Some (snd p) | None => None end.

(** Trace and compile for these types (functions.py:46-47). *)
Definition build (b : Backend) (ts : list ty) (n : nat) : res (staged * nat) :=
  let* r := with_varargs n ts in
  let* call := stage b (snd (fst r)) in
  Ok ((fst (fst r), call), snd r).

(** functions.py:42-50 [_interpret] *)
Definition interpret (st : state) (b : Backend) (args : list Arg) : res Out * state :=
  match types_from_args args with
  | Err e => (Err e, st)
  | Ok ts =>
      match lookup_staged (ts, b) (cache st) with
      | Some s => (snd s (combine (fst s) args), st)
      | None =>
          match build b ts (counter st) with
          | Err e => (Err e, st)
          | Ok (s, n) => (snd s (combine (fst s) args), mkState (((ts, b), s) :: cache st) n)
          end
      end
  end.

Fixpoint interprets (st : state) (calls : list (Backend * list Arg)) : list (res Out) :=
  match calls with
  | [] => []
  | (b, args) :: calls => let (r, st') := interpret st b args in r :: interprets st' calls
  end.

(** Tracing and compiling afresh, with fresh symbols from [n] on. *)
Definition afresh (n : nat) (b : Backend) (args : list Arg) : res Out :=
  let* ts := types_from_args args in
  let* s := build b ts n in
  snd (fst s) (combine (fst (fst s)) args).

Definition coherent (st : state) : Prop :=
  forall ts b s, lookup_staged (ts, b) (cache st) = Some s ->
    forall args n, types_from_args args = Ok ts -> snd s (combine (fst s) args) = afresh n b args.

Hypothesis backend_eqb_eq : forall a b, backend_eqb a b = true <-> a = b.
(** Tracing is deterministic up to the choice of fresh symbols. *)
Hypothesis names_irrelevant : forall n m b args, afresh n b args = afresh m b args.

Lemma tys_eqb_eq a b : tys_eqb a b = true <-> a = b.
Proof. unfold tys_eqb. destruct (list_eq_dec ty_eq_dec a b); split; congruence. Qed.

Lemma key_eqb_eq k k' : key_eqb k k' = true <-> k = k'.
Proof.
  destruct k, k'. unfold key_eqb. simpl. rewrite andb_true_iff, tys_eqb_eq, backend_eqb_eq.
  split; [intros [-> ->]; auto|intros H; injection H as -> ->; auto].
Qed.

Lemma interpret_afresh st b args : coherent st ->
  fst (interpret st b args) = afresh 0 b args /\ coherent (snd (interpret st b args)).
Proof.
  intros C. unfold interpret. destruct (types_from_args args) as [ts|e] eqn:T.
  2: { split; auto. unfold afresh. rewrite T. reflexivity. }
  destruct (lookup_staged (ts, b) (cache st)) as [s|] eqn:L.
  - split; auto. simpl. apply (C ts b s L); auto.
  - destruct (build b ts (counter st)) as [[s n]|e] eqn:B.
    + assert (A : forall args', types_from_args args' = Ok ts -> snd s (combine (fst s) args') = afresh (counter st) b args').
      { intros args' T'. unfold afresh. rewrite T'. cbn [bind]. rewrite B. reflexivity. }
      simpl. split; [rewrite (names_irrelevant 0 (counter st)); auto|].
      intros ts' b' s' L' args' m T'. unfold lookup_staged in L'. cbn [cache find fst snd] in L'.
      destruct (key_eqb (ts', b') (ts, b)) eqn:Q.
      * apply key_eqb_eq in Q. injection Q as -> ->. injection L' as <-.
        rewrite (names_irrelevant m (counter st)). auto.
      * apply (C ts' b' s'); auto.
    + split; auto. simpl. rewrite (names_irrelevant 0 (counter st)). unfold afresh. rewrite T. cbn [bind]. rewrite B. reflexivity.
Qed.

Lemma interprets_afresh calls : forall st, coherent st ->
  interprets st calls = map (fun c => afresh 0 (fst c) (snd c)) calls.
Proof.
  induction calls as [|[b args] calls IH]; intros st C; simpl; auto.
  destruct (interpret_afresh st b args C) as [H1 H2]. destruct (interpret st b args) as [r st'].
  simpl in *. rewrite H1, IH; auto.
Qed.

(** Every traced variable is bound to the argument in its position. *)
Lemma build_vars b ts n s m args : types_from_args args = Ok ts -> build b ts n = Ok (s, m) ->
  map fst (combine (fst s) args) = fst s /\ map snd (combine (fst s) args) = args.
Proof.
  intros T B. unfold build, with_varargs in B. inv_bind. cbn [fst snd].
  assert (L : length args = length ts).
  { unfold types_from_args in T. inv_bind. apply mapM_length in Hb. destruct declared; [destruct (tys_eqb a l)|]; inversion Hk; subst; auto. }
  assert (G : forall (l : list nat) (r : list Arg), length l = length r -> map fst (combine l r) = l /\ map snd (combine l r) = r).
  { induction l; destruct r; simpl; intros H; try lia; auto. destruct (IHl r); [lia|]. split; f_equal; auto. }
  apply G. rewrite seq_length. auto.
Qed.

End Cache.
