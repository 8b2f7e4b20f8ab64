(** ein/midend/size_classes.py:46-154: which sizes the compiler takes to be equal. *)
From Coq Require Import Relations.
From Verif Require Import Base Scalar Tensor Types Sym Phi Den Term PhiTerm DenFree SpecPhi Lining DenWf Equiv Sizes.

Section SizeClasses.
Context {FO : FloatOps} {EX : Externs}.

(** The elements of [SizeEquivalence] (46): indices, standing for the size of the
    comprehension that binds them, and expressions. *)
Inductive key : Type := KIdx (i : nat) | KExpr (e : phi).

Definition key_eqb (a b : key) : bool :=
  match a, b with
  | KIdx i, KIdx j => i =? j
  | KExpr d, KExpr e => phi_eqb d e
  | _, _ => false
  end.
Lemma key_eqb_eq a b : key_eqb a b = true <-> a = b.
Proof.
  destruct a as [i|d], b as [j|e]; simpl; try (split; intros; discriminate).
  - rewrite Nat.eqb_eq. split; congruence.
  - rewrite phi_eqb_eq. split; congruence.
Qed.
Definition key_eq_dec (a b : key) : {a = b} + {a <> b}.
Proof.
  destruct (key_eqb a b) eqn:Q; [left|right].
  - apply key_eqb_eq. exact Q.
  - intros H. apply key_eqb_eq in H. congruence.
Defined.

(** 47-52 *)
Definition knorm (k : key) : key :=
  match k with KIdx i => KIdx i | KExpr e => KExpr (with_indices_at_zero e) end.

Notation uf := (@uf key).
Definition unite (s : uf) (p : key * key) : uf := fst (uf_unite key_eq_dec knorm s (fst p) (snd p)).
Definition unites (s : uf) (ps : list (key * key)) : uf := fold_left unite ps s.
Definition same (s : uf) (ks : list key) : bool := uf_equiv key_eq_dec knorm s ks.

(** [t.primitive_type.single.rank] *)
Definition single_rank (t : ty) : res nat :=
  let* p := primitive_type t in let* a := single p in Ok (fst a).
(** [len(t.primitive_type.elems) == 1] *)
Definition is_single (t : ty) : res bool := let* p := primitive_type t in Ok (length p =? 1).

(** A trigger (58): terms which, when known equal, are also equal to another. *)
Definition trigger : Type := list phi * phi.
Definition found : Type := list (key * key) * list trigger.

Definition pair_e (a b : phi) : key * key := (KExpr a, KExpr b).

(** 66-127: the match of [go] *)
Definition own_facts (e : phi) : res found :=
  match e with
  (* 67-74 *)
  | PConst a =>
      Ok (map (fun p => pair_e (PDim e (fst p)) (p_int (Z.of_nat (snd p))))
              (combine (seq 0 (length (ashape a))) (ashape a)), [])
  (* 75-78 *)
  | PAssertEq target operands =>
      Ok (pair_e e target ::
          match operands with [] => [] | op0 :: _ => map (pair_e op0) operands end, [])
  (* 79-87 *)
  | PLet x bind _ =>
      let* t := typ bind in
      let* one := is_single t in
      if one then
        let* rank := single_rank t in
        Ok (pair_e (p_var x t) bind ::
            map (fun axis => pair_e (PDim (p_var x t) axis) (PDim bind axis)) (seq 0 rank), [])
      else Ok ([], [])
  (* 88-93; the axis is not used *)
  | PVec i size body =>
      let* t := typ e in
      let* rank := single_rank t in
      Ok ((KIdx i, KExpr size) :: (KIdx i, KExpr (PDim e 0)) ::
          map (fun _ => pair_e (PDim e rank) (PDim body (rank - 1))) (seq 1 (rank - 1)), [])
  (* 94-109 *)
  | PGet target _ =>
      let* t := typ e in
      let* rank := single_rank t in
      Ok (flat_map (fun axis => [pair_e (PDim e axis) (PDim (PGet target (p_int 0)) axis);
                                 pair_e (PDim e axis) (PDim target (S axis))]) (seq 0 rank), [])
  (* 110-127 *)
  | PFold _ _ acc init body =>
      let* t := typ init in
      let* one := is_single t in
      if one then
        let* te := typ e in
        let* rank := single_rank te in
        Ok ([], flat_map (fun axis =>
          let a := PDim (p_var acc t) axis in
          let b := PDim body axis in
          let c := PDim init axis in
          [([a; b], c); ([b; c], a); ([c; a], b); ([a; b; c], PDim e axis)]) (seq 0 rank))
      else Ok ([], [])
  | _ => Ok ([], [])
  end.

(** 60-131: the traversal.  [vis] only avoids repeating the same calls. *)
Fixpoint collect (fuel : nat) (e : phi) : res found :=
  match fuel with
  | 0 => Err EFuel
  | S fuel =>
      let* own := own_facts e in
      let* subs := mapM (collect fuel) (subterms e) in
      Ok (fst own ++ flat_map fst subs, snd own ++ flat_map snd subs)
  end.

(** 141-148: one round; [next(iter(required))] is some element of [required] *)
Fixpoint fire (s : uf) (ts : list trigger) : uf * list trigger :=
  match ts with
  | [] => (s, [])
  | (required, obtained) :: ts =>
      if same s (map KExpr required) then
        fire (match required with r :: _ => unite s (pair_e r obtained) | [] => s end) ts
      else let (s, rest) := fire s ts in (s, (required, obtained) :: rest)
  end.
(** 140-148: rounds until nothing fires *)
Fixpoint rounds (fuel : nat) (s : uf) (ts : list trigger) : uf :=
  match fuel with
  | 0 => s
  | S fuel =>
      let (s', rest) := fire s ts in
      if length rest =? length ts then s' else rounds fuel s' rest
  end.

(** 134-148 *)
Definition update_size_classes (s : uf) (program : phi) : res uf :=
  let* f := collect (psize program) program in
  Ok (rounds (length (snd f)) (unites s (fst f)) (snd f)).
(** 151-154 *)
Definition find_size_classes (program : phi) : res uf := update_size_classes uf_empty program.

End SizeClasses.
