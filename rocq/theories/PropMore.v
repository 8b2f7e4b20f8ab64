(** Shifts without bounds (C06) and types of array layouts (C13). *)
From Verif Require Import Base Scalar Tensor Types Sym Phi Den TypesFacts ClipShift Sample.

Section Props.
Context {FO : FloatOps} {EX : Externs}.

(** * C06 *)

(** The shift that match_shift finds has no index and is the difference to the index. *)
Theorem C06_shift (e d : phi) (i : nat) :
  In (SX i) (fsyms e) -> match_shift e (SX i) = Some d ->
  (forall j, ~ In (SX j) (fsyms d)) /\
  forall E k, E (SX i) = Some (vint k) ->
  forall z, (exists v, den E e = Ok v /\ val_scalar v = Ok (SI z)) <->
            (exists v, den E d = Ok v /\ val_scalar v = Ok (SI (z - k)%Z)).
Proof.
  intros I H. unfold match_shift in H. destruct (match_clipped_shift e (SX i)) as [[[d' lo] hi]|] eqn:M; [|discriminate].
  destruct lo; [discriminate|]. destruct hi; [discriminate|]. subst d'.
  apply match_clipped_shift_sound in M; [|unfold free_indices; apply filter_In; auto]. destruct M as (N & _ & _ & M). split.
  - intros j Hj. assert (A : In (SX j) (free_indices d)) by (unfold free_indices; apply filter_In; auto).
    cbn [no_index] in N. rewrite N in A. destruct A.
  - intros E k Hk z. specialize (M E k Hk z). unfold den_int in M. rewrite M. split.
    + intros (zd & zl & zh & D & L & G & ->). destruct zl; [destruct L|]. destruct zh; [destruct G|].
      destruct zd as [zd|]; [|destruct D]. destruct D as (v & D & S). exists v. split; auto. rewrite S. unfold clip_form. do 2 f_equal. lia.
    + intros (v & D & S). exists (Some (z - k)%Z), None, None. split; [exists v; auto|]. split; [exact Logic.I|]. split; [exact Logic.I|].
      unfold clip_form. lia.
Qed.

Example C06_shift_example :
  let n := PStore (SV 0) (TScalar KInt) in
  let e := PBin BSub (PBin BAdd (p_at 3) n) (p_int 2) in
  match_shift e (SX 3) = Some (PBin BAdd n (PUn UNeg (p_int 2))) /\ In (SX 3) (fsyms e) /\
  match_shift (PBin BMax e (p_int 0)) (SX 3) = None /\ match_shift (p_at 3) (SX 3) = None.
Proof. cbv zeta. split; [reflexivity|]. split; [simpl; auto|]. split; reflexivity. Qed.

(** * C13 *)

(** The type of a layout of at least one array: its arrays are those of the
    layout, and a type with such arrays has the layout of its struct of arrays. *)
Theorem C13_layout_type (p : pty) : p <> [] ->
  exists t, pty_type p = Ok t /\ primitive_type t = Ok p /\ soa_ty t = t /\
    forall t', primitive_type (soa_ty t') = Ok p -> leaves 0 t' = leaves 0 t.
Proof.
  intros N. assert (T : exists t, pty_type p = Ok t).
  { induction p as [|x p IH]; [congruence|]. destruct p as [|y p]; [eexists; reflexivity|].
    destruct IH as (t & T); [congruence|]. exists (TPair (pat_type x) t).
    change (pty_type (x :: y :: p)) with (let* t := pty_type (y :: p) in Ok (TPair (pat_type x) t)). rewrite T. reflexivity. }
  destruct T as (t & T). exists t. split; [exact T|]. apply pty_type_leaves in T as [L F]. split; [rewrite <- L; apply primitive_flat; auto|].
  split; [apply soa_flat_id; auto|]. intros t' H. apply soa_primitive_any in H. congruence.
Qed.

Theorem C13_no_layout : forall t, primitive_type t <> Ok [].
Proof.
  intros t H. apply primitive_leaves in H. assert (G : forall t r, leaves r t <> []).
  { clear. induction t as [k|t IH|a IHa b IHb]; intros r; simpl; [congruence|apply IH|]. intros H. apply app_eq_nil in H as [H _]. apply (IHa r H). }
  apply (G t 0). auto.
Qed.

Example C13_layout_type_example :
  pty_type [(1, KInt); (0, KFloat); (2, KBool)] =
    Ok (TPair (TVec (TScalar KInt)) (TPair (TScalar KFloat) (TVec (TVec (TScalar KBool))))).
Proof. reflexivity. Qed.
End Props.

Print Assumptions C06_shift.
Print Assumptions C13_layout_type.
Print Assumptions C13_no_layout.
