(** Calls of a function (ein/frontend/functions.py:22-89), in any order, and what
    they return: C29 and C41. *)
From Verif Require Import Base Scalar Tensor Types Sym Phi Den NdOps Term PhiTerm NdFacts DenFree DenWf Typing TypesFacts Naive SpecPhi Lining Outline
  Dominators InlineMemo GenCheck Checkers OutlinePass OutlineTotal OutlineBinders Soa SoaTyp SoaFacts SoaMain SoaWf Pipeline Cache Sample Once OnceNaive
  PropCodegen PropOutline PropPipeline PropOnce.

Section Calls.
Context {FO : FloatOps}.
Variables (Arg Out Backend : Type).
Variable backend_eqb : Backend -> Backend -> bool.
Variable type_of : Arg -> res ty.
Variable fun_ : nat -> list phi -> res (phi * nat).
Variable stage : Backend -> phi -> res (list (nat * Arg) -> res Out).
Variable declared : option (list ty).
Notation interprets := (interprets Arg Out Backend backend_eqb type_of fun_ stage declared).
Notation afresh := (afresh Arg Out Backend type_of fun_ stage declared).
Notation state := (state Arg Out Backend).

(** The entries of the cache were built for their key. *)
Definition built (st : state) : Prop := forall ts b s, In ((ts, b), s) (cache _ _ _ st) ->
  exists n m, build Arg Out Backend fun_ stage b ts n = Ok (s, m).

Lemma call_built st b args : (forall a b, backend_eqb a b = true <-> a = b) -> built st ->
  let r := Cache.interpret Arg Out Backend backend_eqb type_of fun_ stage declared st b args in
  built (snd r) /\ exists k, fst r = afresh k b args.
Proof.
  intros EQ C. unfold Cache.interpret, Cache.afresh. destruct (types_from_args Arg type_of declared args) as [ts|x] eqn:T.
  2:{ split; [exact C|]. exists 0. reflexivity. }
  destruct (lookup_staged Arg Out Backend backend_eqb (ts, b) (cache _ _ _ st)) as [s|] eqn:L.
  - split; [exact C|]. unfold lookup_staged in L. destruct (find _ _) as [[k s']|] eqn:Fd; [|discriminate]. injection L as <-.
    apply find_some in Fd as [I K]. cbn [fst] in K. apply (key_eqb_eq Backend backend_eqb EQ) in K. subst k.
    destruct (C _ _ _ I) as (n & m & B). exists n. cbn [bind]. rewrite B. reflexivity.
  - destruct (build Arg Out Backend fun_ stage b ts (counter _ _ _ st)) as [[s n]|x] eqn:B.
    + split.
      * intros ts' b' s' [H|H]; [injection H as <- <- <-; eauto|eapply C; eauto].
      * exists (counter _ _ _ st). cbn [bind]. rewrite B. reflexivity.
    + split; [exact C|]. exists (counter _ _ _ st). cbn [bind]. rewrite B. reflexivity.
Qed.

(** Each call, in any history of calls, returns what tracing and compiling for
    these arguments and running the result returns. *)
Theorem C29_every_call (calls : list (Backend * list Arg)) (n i : nat) b args r :
  (forall a b, backend_eqb a b = true <-> a = b) ->
  nth_error calls i = Some (b, args) ->
  nth_error (interprets (mkState Arg Out Backend [] n) calls) i = Some r ->
  exists k, r = afresh k b args.
Proof.
  intros EQ. assert (C : built (mkState Arg Out Backend [] n)) by (intros ? ? ? []).
  revert C. generalize (mkState Arg Out Backend [] n) as st. revert i.
  induction calls as [|[b' args'] calls IH]; intros i st C HI HR; [destruct i; discriminate|].
  cbn [Cache.interprets] in HR. pose proof (call_built st b' args' EQ C) as [C' K]. cbv zeta in *.
  destruct (Cache.interpret _ _ _ _ _ _ _ _ st b' args') as [r' st'] eqn:Q. cbn [fst snd] in *.
  destruct i as [|i]; cbn [nth_error] in *; [injection HI as <- <-; injection HR as <-; exact K|eapply IH; eauto].
Qed.

(** The function object and the symbol counter after the calls. *)
Definition after (st : state) (calls : list (Backend * list Arg)) : state :=
  fold_left (fun st c => snd (Cache.interpret Arg Out Backend backend_eqb type_of fun_ stage declared st (fst c) (snd c))) calls st.

(** No key twice; the variables of the entries are pairwise different and older
    than the counter. *)
Definition tidy_cache (st : state) : Prop :=
  NoDup (map fst (cache _ _ _ st)) /\ NoDup (flat_map (fun p => fst (snd p)) (cache _ _ _ st)) /\
  (forall x, In x (flat_map (fun p => fst (snd p)) (cache _ _ _ st)) -> x < counter _ _ _ st).

Lemma call_tidy st b args : (forall a b, backend_eqb a b = true <-> a = b) -> (forall n es e m, fun_ n es = Ok (e, m) -> n <= m) ->
  tidy_cache st -> tidy_cache (snd (Cache.interpret Arg Out Backend backend_eqb type_of fun_ stage declared st b args)).
Proof.
  intros EQ MO (K & D & B). unfold Cache.interpret. destruct (types_from_args Arg type_of declared args) as [ts|x]; [|repeat split; auto].
  destruct (lookup_staged Arg Out Backend backend_eqb (ts, b) (cache _ _ _ st)) as [s|] eqn:L; [repeat split; auto|].
  destruct (build Arg Out Backend fun_ stage b ts (counter _ _ _ st)) as [[s n]|x] eqn:Q; [|repeat split; auto].
  unfold build, with_varargs in Q. apply bind_ok in Q as ([[vars e] m] & Q & Q2). apply bind_ok in Q as ([e' m'] & Q & Q1).
  injection Q1 as <- <- <-. apply bind_ok in Q2 as (call & _ & Q2). injection Q2 as <- <-. apply MO in Q. cbn [fst snd] in *.
  unfold tidy_cache. cbn [snd fst cache counter map flat_map]. split; [|split].
  - constructor; [|exact K]. intros H. apply in_map_iff in H as ([k s'] & Hk & H). cbn [fst] in Hk. subst k.
    unfold lookup_staged in L. destruct (find _ _) eqn:Fd; [discriminate|]. apply (find_none _ _ Fd) in H. cbn [fst] in H.
    rewrite (proj2 (key_eqb_eq Backend backend_eqb EQ _ _) eq_refl) in H. discriminate.
  - apply NoDup_app_make; [apply seq_NoDup|exact D|]. intros x H1 H2. apply in_seq in H1. apply B in H2. lia.
  - intros x H. apply in_app_iff in H as [H|H]; [apply in_seq in H; lia|]. apply B in H. lia.
Qed.

(** In any history of calls a function is traced and compiled at most once for
    argument types and backend, a call for types and backend that it holds
    changes nothing, and no two of the compiled programs, nor any program still
    to be compiled, have an argument variable in common. *)
Theorem C29_compiled_once (calls : list (Backend * list Arg)) (n : nat) :
  (forall a b, backend_eqb a b = true <-> a = b) -> (forall n es e m, fun_ n es = Ok (e, m) -> n <= m) ->
  let st := after (mkState Arg Out Backend [] n) calls in
  NoDup (map fst (cache _ _ _ st)) /\
  (forall b args ts, types_from_args Arg type_of declared args = Ok ts -> In (ts, b) (map fst (cache _ _ _ st)) ->
     snd (Cache.interpret Arg Out Backend backend_eqb type_of fun_ stage declared st b args) = st) /\
  NoDup (flat_map (fun p => fst (snd p)) (cache _ _ _ st)) /\
  (forall x, In x (flat_map (fun p => fst (snd p)) (cache _ _ _ st)) -> x < counter _ _ _ st).
Proof.
  intros EQ MO. cbv zeta. assert (TC : tidy_cache (after (mkState Arg Out Backend [] n) calls)).
  { assert (C : tidy_cache (mkState Arg Out Backend [] n)) by (split; [|split]; [constructor|constructor|intros ? []]).
    revert C. generalize (mkState Arg Out Backend [] n) as st. unfold after.
    induction calls as [|[b args] calls IH]; intros st C; cbn [fold_left]; [exact C|]. apply IH. apply call_tidy; auto. }
  destruct TC as (K & D & B). split; [exact K|]. split; [|split; auto]. intros b args ts T I.
  unfold Cache.interpret. rewrite T. destruct (lookup_staged _ _ _ _ _ _) as [s|] eqn:L; [reflexivity|exfalso].
  apply in_map_iff in I as ([k s] & Hk & I). cbn [fst] in Hk. subst k.
  unfold lookup_staged in L. destruct (find _ _) eqn:Fd; [discriminate|]. apply (find_none _ _ Fd) in I. cbn [fst] in I.
  rewrite (proj2 (key_eqb_eq Backend backend_eqb EQ _ _) eq_refl) in I. discriminate.
Qed.
End Calls.

Section Interpreter.
Context {FO : FloatOps} {EX : Externs}.
Variables (Backend : Type) (backend_eqb : Backend -> Backend -> bool).
Variable type_of : val -> res ty.
Variable fun_ : nat -> list phi -> res (phi * nat).
Variable declared : option (list ty).
Variable fuel : nat.

Definition args_env (l : list (nat * val)) : env := fold_right (fun p E => upd E (SV (fst p)) (snd p)) empty_env l.
Definition args_ctx (l : list (nat * ty)) : tctx := fold_right (fun p G => upd G (SV (fst p)) (snd p)) empty_env l.
Definition next_for (q : phi) (vars : list nat) : nat := Nat.max (next_sym q) (S (list_max vars)).

(** naive.py:88-93; symbols drawn are new. *)
Definition stage_naive (b : Backend) (e : phi) : res (list (nat * val) -> res val) :=
  Ok (fun l => let* q := struct_of_arrays fuel e in
               let* r := Pipeline.interpret false fuel (next_for q (map fst l)) e (args_env l) in Ok (fst r)).

(** The traced program [e] of arguments [vars] can be run: conditions of
    C41_interpreter_returns. *)
Definition runs_to (vars : list nat) (ts : list ty) (args : list val) (e : phi) (v : val) : Prop :=
  convertible (args_ctx (combine vars ts)) vars e /\
  exists q r, struct_of_arrays fuel e = Ok q /\ distinct_binders q /\ outline (next_for q vars) q = Ok r /\
    den_once true (args_env (combine vars args)) q = Ok v.

Lemma syms_sub n q : sub_of n q -> incl (syms n) (syms q).
Proof.
  assert (Cs : forall (e : phi) c, In c (subterms e) -> incl (syms c) (syms e)).
  { assert (FM : forall c ops, In c ops -> incl (syms c) (flat_map syms ops)) by (intros c ops H s Hs; apply in_flat_map; eauto).
    intros e c Hc s Hs. destruct e; simpl in Hc |- *; rewrite ?in_app_iff in *; cbn [In] in *;
      repeat match goal with H : _ \/ _ |- _ => destruct H end; subst; try contradiction; auto 8;
      match goal with H : In c ?l |- _ => specialize (FM c l H s Hs); auto 8 end. }
  induction 1 as [|e c n Hc Hs IH]; [apply incl_refl|]. intros s Hn. apply (Cs _ _ Hc). auto.
Qed.
Lemma next_for_above q vars : above (next_for q vars) q.
Proof.
  intros n x Hn Hx. assert (In (SV x) (syms q)).
  { apply (syms_sub n q Hn). destruct n; cbn in Hx |- *; intuition (try congruence);
      match goal with H : Some _ = Some _ |- _ => injection H as ->; auto | _ => idtac end. }
  unfold next_for, next_sym. assert (x <= list_max (map symno (syms q))); [|lia].
  pose proof (proj1 (list_max_le (map symno (syms q)) _) (Nat.le_refl _)) as F. rewrite Forall_forall in F.
  apply (F (symno (SV x))). apply in_map. auto.
Qed.

Lemma args_typed vars : forall args ts, (forall a t, type_of a = Ok t -> has_type a t) -> mapM type_of args = Ok ts ->
  env_typed (args_ctx (combine vars ts)) (args_env (combine vars args)).
Proof.
  induction vars as [|x vars IH]; intros args ts HT M; [intros s t v H; discriminate|].
  destruct args as [|a args]; cbn [mapM] in M; [injection M as <-; intros s t v H; discriminate|].
  apply bind_ok in M as (t & M1 & M). apply bind_ok in M as (ts' & M2 & M). injection M as <-.
  cbn [combine args_ctx args_env fold_right fst snd]. apply env_typed_upd; [apply IH; auto|auto].
Qed.
Lemma args_dom l s : args_env l s <> None -> exists x, s = SV x /\ In x (map fst l).
Proof.
  induction l as [|[x v] l IH]; cbn [args_env fold_right fst snd map]; [intros H; destruct H; reflexivity|].
  unfold upd. destruct (sym_eqb s (SV x)) eqn:Q; [apply sym_eqb_eq in Q; subst; intros _; exists x; simpl; auto|].
  intros H. destruct (IH H) as (y & -> & Hy). exists y. simpl. auto.
Qed.

(** The result of each call, in any history of calls of a function on the
    interpreter, is the value at these arguments of the expression the function
    builds for them. *)
Theorem C41_calls (calls : list (Backend * list val)) (n i : nat) b args ts r :
  (forall a b, backend_eqb a b = true <-> a = b) -> (forall a t, type_of a = Ok t -> has_type a t) ->
  nth_error calls i = Some (b, args) -> types_from_args val type_of declared args = Ok ts ->
  nth_error (interprets val val Backend backend_eqb type_of fun_ stage_naive declared (mkState _ _ _ [] n) calls) i = Some r ->
  exists k, let vars := seq k (length ts) in
  match fun_ (k + length ts) (map (fun p => PStore (SV (fst p)) (snd p)) (combine vars ts)) with
  | Err x => r = Err x
  | Ok (e, _) => forall v, runs_to vars ts args e v ->
      r = Ok v /\ forall w, den (args_env (combine vars args)) e = Ok w -> w = v
  end.
Proof.
  intros EQ HT HI T HR. destruct (C29_every_call _ _ _ _ _ _ _ _ calls n i b args r EQ HI HR) as (k & ->).
  exists k. cbv zeta. unfold afresh. rewrite T. cbn [bind]. unfold build, with_varargs.
  destruct (fun_ _ _) as [[e m]|x]; [|reflexivity]. cbn [bind fst snd stage_naive].
  assert (M : mapM type_of args = Ok ts).
  { unfold types_from_args in T. apply bind_ok in T as (ts' & T & D). destruct declared as [d|]; [destruct (tys_eqb ts' d)|]; congruence. }
  assert (L : length args = length ts) by (apply mapM_length in M; congruence).
  assert (V : map fst (combine (seq k (length ts)) args) = seq k (length ts)).
  { assert (G : forall (l : list nat) (r : list val), length l = length r -> map fst (combine l r) = l).
    { induction l as [|y l IH]; intros [|a0 r0] H; simpl in *; try lia; auto. f_equal. apply IH. lia. }
    apply G. rewrite seq_length. auto. }
  set (vars := seq k (length ts)) in *. intros v (CV & q & o & Q & DQ & O & HV). rewrite Q, V. cbn [bind].
  destruct (C41_interpreter_returns fuel (next_for q vars) e q o (args_ctx (combine vars ts)) vars (args_env (combine vars args)) v) as [(E' & R & _) U]; auto.
  - apply args_typed; auto.
  - intros s Hs. apply args_dom in Hs. rewrite V in Hs. exact Hs.
  - apply next_for_above.
  - intros x Hx. unfold next_for. pose proof (proj1 (list_max_le vars _) (Nat.le_refl _)) as F. rewrite Forall_forall in F. specialize (F x Hx). lia.
  - rewrite R. cbn [bind fst]. split; [reflexivity|exact U].
Qed.
End Interpreter.

(** * Example *)
Section Samples.
#[local] Existing Instance zfloat.
#[local] Existing Instance no_externs.

(** lambda xs: array(lambda i: xs[i] * xs[i] + 1.0), called on arrays of different
    lengths (one entry in the cache) and on a scalar. *)
Definition sq_fun (n : nat) (l : list phi) : res (phi * nat) :=
  match l with
  | [x] => let* t := typ x in
      match t with
      | TVec _ => let e := PGet x (PStore (SX n) (TScalar KInt)) in
                  Ok (PVec n (PDim x 0) (PBin BAdd (PBin BMul e e) (PConst (ascalar (SF (1%Z : F))))), S n)
      | _ => Err EType
      end
  | _ => Err EType
  end.
Definition arr_type (v : val) : res ty := match v with VArr a => if arr_wfb a then Ok (ndarray_type (length (ashape a)) (akind a)) else Err EType | _ => Err EType end.
Lemma arr_type_ok a t : arr_type a = Ok t -> has_type a t.
Proof.
  destruct a as [a|]; simpl; [|discriminate]. destruct (arr_wfb a) eqn:W; [|discriminate]. intros H. injection H as <-.
  assert (arr_wf a).
  { unfold arr_wfb in W. apply andb_true_iff in W as [W1 W2]. apply Nat.eqb_eq in W1. split; auto.
    rewrite forallb_forall in W2. rewrite Forall_forall. intros s Hs. apply kind_eqb_eq. auto. }
  split; [exact H|]. cbn [vtype]. clear. induction (length (ashape a)) as [|n IH]; cbn [ndarray_type dist]; [reflexivity|].
  rewrite <- IH. destruct n; reflexivity.
Qed.
Definition sq_prog (x i : nat) : phi :=
  let xs := PStore (SV x) (TVec (TScalar KFloat)) in let e := PGet xs (PStore (SX i) (TScalar KInt)) in
  PVec i (PDim xs 0) (PBin BAdd (PBin BMul e e) (PConst (ascalar (SF (1%Z : F))))).

Example C41_calls_example :
  let calls := [(true, [VArr (farr [3] [10; 20; 30]%Z)]); (true, [vint 3]); (true, [VArr (farr [2] [1; 2]%Z)])] in
  let t := TVec (TScalar KFloat) in
  interprets val val bool Bool.eqb arr_type sq_fun (stage_naive bool 20) None (mkState _ _ _ [] 5) calls =
    [Ok (VArr (farr [3] [101; 401; 901]%Z)); Err EType; Ok (VArr (farr [2] [2; 5]%Z))] /\
  types_from_args val arr_type None [VArr (farr [2] [1; 2]%Z)] = Ok [t] /\
  sq_fun 6 [PStore (SV 5) t] = Ok (sq_prog 5 6, 7) /\
  runs_to 20 [5] [t] [VArr (farr [2] [1; 2]%Z)] (sq_prog 5 6) (VArr (farr [2] [2; 5]%Z)).
Proof.
  cbv zeta. split; [vm_compute; reflexivity|]. split; [vm_compute; reflexivity|]. split; [reflexivity|]. split.
  - split; [|split; [|split]].
    + split; [eexists; reflexivity|]. split.
      { simpl. repeat match goal with
          | |- _ /\ _ => split | |- exists _, _ => eexists | |- arr_wf _ => apply ascalar_wf | |- _ = _ => reflexivity end. }
      split; [simpl; unfold int_typed; repeat (split || eexists || reflexivity)|]. split; [simpl; repeat split; auto|].
      split; [simpl; intuition congruence|].
      intros s. cbn [combine args_ctx fold_right fst snd]. unfold upd, empty_env. destruct (sym_eqb s (SV 5)) eqn:Q; [|congruence].
      apply sym_eqb_eq in Q. subst. exists 5. simpl. auto.
    + simpl. repeat match goal with |- _ /\ _ => split | |- True => exact I | |- forall _, _ => intros ? Hs; inversion Hs; reflexivity end.
    + intros s t. cbn [combine args_ctx fold_right fst snd]. unfold upd, empty_env. destruct (sym_eqb s (SV 5)); [|discriminate]. intros H. injection H as <-. reflexivity.
    + intros x [<-|[]]. vm_compute. lia.
  - eexists _, _. split; [vm_compute; reflexivity|]. split; [apply distinctb_sound; vm_compute; reflexivity|].
    split; vm_compute; reflexivity.
Qed.
Example C29_compiled_once_example :
  let calls := [(true, [VArr (farr [3] [10; 20; 30]%Z)]); (true, [vint 3]); (true, [VArr (farr [2] [1; 2]%Z)]); (false, [VArr (farr [1] [4]%Z)])] in
  let t := TVec (TScalar KFloat) in
  let st := after val val bool Bool.eqb arr_type sq_fun (stage_naive bool 20) None (mkState _ _ _ [] 5) calls in
  (forall n es e m, sq_fun n es = Ok (e, m) -> n <= m) /\
  map (fun p => (fst p, fst (snd p))) (cache _ _ _ st) = [([t], false, [7]); ([t], true, [5])] /\ counter _ _ _ st = 9.
Proof.
  cbv zeta. split; [|split; vm_compute; reflexivity].
  intros n es e m H. unfold sq_fun in H. destruct es as [|x [|y es]]; try discriminate. apply bind_ok in H as (t & _ & H).
  destruct t; try discriminate. injection H as _ <-. lia.
Qed.
End Samples.

Print Assumptions C29_every_call.
Print Assumptions C29_compiled_once.
Print Assumptions C41_calls.
