(** What the strict translation produces, the code produces. *)
From Verif Require Import Base Scalar Tensor Types Sym Phi Den Term PhiTerm DenFree SpecPhi Lining
  Sizes ClipShift NdOps Yarr Axial Codegen.

Section Strict.
Context {FO : FloatOps} {EX : Externs}.

(** The flags as in phi_to_yarr.py:25-35. *)
Definition code_flags (fl : flags) : flags :=
  mkFlags (use_takes fl) (use_slice_pads fl) (use_slice_elision fl) (use_reductions fl) (use_einsum fl) false.

Variable fl : flags.
Variable orc : oracle.

Lemma ref_err {A} e (x : res A) : ref (Err e) x.
Proof. intros v H. discriminate. Qed.

Lemma ref_guard (b : bool) e : ref (guard b e) (Ok tt).
Proof. intros [] H. auto. Qed.

Ltac rstep :=
  match goal with
  | |- ref ?x ?x => apply ref_refl
  | H : ref ?x ?y |- ref ?x ?y => exact H
  | H : forall e, ref (?f e) (?g e) |- ref (?f _) (?g _) => apply H
  | H : forall i e, ref (?f i e) (?g i e) |- ref (?f _ _) (?g _ _) => apply H
  | |- ref (bind _ _) (bind _ _) => apply ref_bind; [|intros ?]
  | |- ref (mapM _ _) (mapM _ _) => apply ref_mapM; intros ? _
  | |- ref (if ?b then _ else _) (if ?b then _ else _) => destruct b
  | |- ref (match ?x with _ => _ end) (match ?x with _ => _ end) => destruct x
  end.

Lemma transform_get_ref rec rec' idxs t i :
  (forall e, ref (rec e) (rec' e)) ->
  ref (transform_get fl orc rec idxs t i) (transform_get (code_flags fl) orc rec' idxs t i).
Proof.
  intros H. unfold transform_get. cbn [use_takes use_slice_pads use_slice_elision code_flags]. repeat rstep.
Qed.

Lemma match_reduction_ref rec rec' index c size acc init body :
  (forall e, ref (rec e) (rec' e)) ->
  ref (match_reduction fl orc rec index c size acc init body) (match_reduction (code_flags fl) orc rec' index c size acc init body).
Proof.
  intros H. unfold match_reduction. cbn [strict code_flags]. change (negb false) with true. cbn [orb].
  repeat first [rstep | apply ref_guard].
Qed.

Lemma go_product_ref rec rec' idxs ct re sa args :
  (forall i e, ref (rec i e) (rec' i e)) ->
  ref (go_product fl orc rec idxs ct re sa args) (go_product (code_flags fl) orc rec' idxs ct re sa args).
Proof.
  intros H. unfold go_product. cbn [strict code_flags]. change (negb false) with true. cbn [orb].
  repeat first [rstep | apply ref_guard].
Qed.

Lemma go_products_ref f g l : (forall p, ref (f p) (g p)) -> ref (go_products f l) (go_products g l).
Proof. intros H. induction l; cbn [go_products]; repeat rstep. Qed.

Lemma einsum_fold_ref rec rec' idxs vax e :
  (forall i e, ref (rec i e) (rec' i e)) ->
  ref (einsum_fold fl orc rec idxs vax e) (einsum_fold (code_flags fl) orc rec' idxs vax e).
Proof.
  intros H. unfold einsum_fold. cbn [strict code_flags]. change (negb false) with true. cbn [orb].
  repeat first [rstep | apply ref_guard]. apply go_products_ref. intros p. apply go_product_ref. auto.
Qed.

Lemma go_ref fuel : forall idxs vax e, ref (go fl orc fuel idxs vax e) (go (code_flags fl) orc fuel idxs vax e).
Proof.
  induction fuel as [|fuel IH]; intros idxs vax e; [apply ref_err|].
  assert (IH1 := IH idxs vax).
  cbn [go]. cbn [use_einsum use_reductions strict code_flags].
  change (negb false) with true. cbn [orb].
  destruct e; cbn [guard].
  all: repeat first [ apply IH | apply ref_guard | apply transform_get_ref; exact IH1
    | apply match_reduction_ref; intros | apply einsum_fold_ref; intros | rstep ].
Qed.
End Strict.
