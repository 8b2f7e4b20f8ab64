(** Property C12: arrays of records compiled to records of arrays. *)
From Verif Require Import Base Scalar Tensor Types Sym Phi Den Term PhiTerm DenFree SpecPhi Lining LiningFacts TypesFacts Typing DenWf Naive Sizes Subst CodegenSub Soa SoaTyp SoaOps
  SoaFacts SoaReduce SoaMain NdOps Yarr Sample.

Section Props.
Context {FO : FloatOps} {EX : Externs}.

(** Whenever the conversion of a program gives a program, that program has the
    type of the original and, in every environment where the original has a
    value, the same value.  Values of arrays of records are records of arrays
    ([den]).  The program is well typed in its environment, its binders are
    distinct, and no type in it has records under two or more vectors (the
    conversion raises on these, [C12_rank2_refuted]). *)
Theorem C12_converted fuel p q G E t v :
  struct_of_arrays fuel p = Ok q ->
  typ p = Ok t -> scoped G p -> int_indices p -> exts_ok p -> fresh_binders [] p ->
  all_shallow p -> (forall s ts, G s = Some ts -> shallow ts = true) ->
  env_typed G E -> den E p = Ok v -> den E q = Ok v /\ typ q = Ok t.
Proof. intros. eapply soa_ok; eauto. Qed.
End Props.

Section Samples.
Let FO := zfloat.
Let EX := no_externs.
Existing Instance FO.
Existing Instance EX.
Notation int_ := (TScalar KInt).
Notation float_ := (TScalar KFloat).
Notation rec_ := (TPair int_ float_).
Definition ci (z : Z) : phi := PConst (ascalar (SI z)).
Definition cf (z : Z) : phi := PConst (ascalar (SF (z : F))).

(** let a = array(lambda i: (i, x[i] * 2.0), size=x.size(0)) and the sums of both
    components by reduction, combined with the second record of a. *)
Definition xs : phi := PStore (SV 0) (TVec float_).
Definition recs : phi :=
  PVec 1 (PDim xs 0) (PCons (PStore (SX 1) int_) (PBin BMul (PGet xs (PStore (SX 1) int_)) (cf 2))).
Definition pt (s : nat) : phi := PStore (SV s) rec_.
Definition a_ : phi := PStore (SV 2) (TVec rec_).
Definition sums : phi :=
  PReduce (PCons (ci 0) (cf 0)) 3 4
    (PCons (PBin BAdd (PFirst (pt 3)) (PFirst (pt 4))) (PBin BAdd (PSecond (pt 3)) (PSecond (pt 4)))) [a_].
Definition records_prog : phi :=
  PLet 2 recs (PCons (PLet 5 sums (PCons (PFirst (pt 5)) (PBin BMul (PSecond (pt 5)) (PSecond (PGet a_ (ci 1))))))
                     (PDim a_ 0)).

Definition G0 : tctx := upd empty_env (SV 0) (TVec float_).
Definition E0 : env := upd empty_env (SV 0) (VArr (farr [3] [5; 6; 7]%Z)).
Definition records_conv : phi := match struct_of_arrays 30 records_prog with Ok q => q | Err _ => ci 0 end.

(** no comprehension of records is left *)
Fixpoint record_vecs (e : phi) : nat :=
  match e with PVec _ _ b => match typ b with Ok (TPair _ _) => 1 | _ => 0 end | _ => 0 end +
  match e with
  | PConst _ | PStore _ _ => 0
  | PLet _ b c => record_vecs b + record_vecs c
  | PAssertEq t ops => record_vecs t + fold_right (fun o k => record_vecs o + k) 0 ops
  | PDim t _ | PFirst t | PSecond t | PUn _ t => record_vecs t
  | PGet a b | PCons a b | PBin _ a b | PConcat a b => record_vecs a + record_vecs b
  | PVec _ s b => record_vecs s + record_vecs b
  | PFold _ s _ i b => record_vecs s + record_vecs i + record_vecs b
  | PReduce i _ _ xy vs => record_vecs i + record_vecs xy + fold_right (fun o k => record_vecs o + k) 0 vs
  | PWhere c a b => record_vecs c + record_vecs a + record_vecs b
  | PExt _ _ ops => fold_right (fun o k => record_vecs o + k) 0 ops
  end.

Example C12_converted_applies :
  struct_of_arrays 30 records_prog = Ok records_conv /\ record_vecs records_prog = 1 /\ record_vecs records_conv = 0 /\
  typ records_prog = Ok (TPair rec_ int_) /\ scoped G0 records_prog /\ int_indices records_prog /\ exts_ok records_prog /\
  fresh_binders [] records_prog /\ all_shallow records_prog /\ env_typed G0 E0 /\
  den E0 records_prog = Ok (VPair (VPair (VArr (ascalar (SI 3%Z))) (VArr (ascalar (SF (432%Z : F)))))
                                  (VArr (ascalar (SI 3%Z)))) /\
  den E0 records_conv = den E0 records_prog.
Proof.
  split; [vm_compute; reflexivity|]. split; [reflexivity|]. split; [vm_compute; reflexivity|]. split; [reflexivity|].
  split. { simpl. repeat match goal with |- _ /\ _ => split | |- exists _, _ => eexists | |- True => exact I | |- _ = _ => reflexivity | |- arr_wf _ => vm_compute; auto end. }
  split. { simpl. unfold int_typed. repeat (split || eexists || reflexivity). }
  split. { simpl. auto 30. }
  split. { simpl. unfold not. intuition (try congruence). }
  split. { simpl. repeat match goal with |- _ /\ _ => split | |- True => exact I | |- forall _, _ => intros ? Hs; inversion Hs; reflexivity end. }
  split. { apply env_typed_upd; [intros s t H; discriminate|]. split; [|reflexivity]. vm_compute. auto. }
  split; vm_compute; reflexivity.
Qed.

(** A program whose result is an array of records is never converted: the final
    comparison with the original type (structs.py:167-172) always fails. *)
Theorem C12_result_records_refuted :
  typ recs = Ok (TVec rec_) /\ (exists v, den E0 recs = Ok v) /\ all_shallow recs /\
  forall fuel q, struct_of_arrays fuel recs <> Ok q.
Proof.
  split; [reflexivity|]. split; [eexists; vm_compute; reflexivity|].
  split. { simpl. repeat match goal with |- _ /\ _ => split | |- True => exact I | |- forall _, _ => intros ? Hs; inversion Hs; reflexivity end. }
  intros fuel q H. do 16 (destruct fuel as [|fuel]; [vm_compute in H; discriminate|]). vm_compute in H. discriminate.
Qed.

(** Records under two vectors, array(lambda i, j: (i, 1.0))[0, 0].second: the
    program has a value, and the conversion always raises. *)
Definition grid : phi := PVec 1 (ci 2) (PVec 2 (ci 3) (PCons (PStore (SX 1) int_) (cf 1))).
Definition grid_prog : phi := PSecond (PGet (PGet grid (ci 0)) (ci 0)).
Theorem C12_rank2_refuted :
  typ grid_prog = Ok float_ /\ den empty_env grid_prog = Ok (VArr (ascalar (SF (1%Z : F)))) /\
  forall fuel q, struct_of_arrays fuel grid_prog <> Ok q.
Proof.
  split; [reflexivity|]. split; [vm_compute; reflexivity|].
  intros fuel q H. do 16 (destruct fuel as [|fuel]; [vm_compute in H; discriminate|]). vm_compute in H. discriminate.
Qed.

(** The size of an array of records should check that the components agree in
    size, but AssertEq(dims[0], dims[1:]) (structs.py:74) compares the sizes after
    the first with each other only: for components of sizes 3 and 4 the original
    program has no value and the converted one answers 3. *)
Definition size_prog : phi := PDim (PStore (SV 0) (TVec rec_)) 0.
Definition uneven : env := upd empty_env (SV 0) (VPair (VArr (iarr [3] [1; 2; 3]%Z)) (VArr (farr [4] [1; 2; 3; 4]%Z))).
Theorem C12_size_check_refuted :
  env_typed (upd empty_env (SV 0) (TVec rec_)) uneven /\ den uneven size_prog = Err EShape /\
  exists q, struct_of_arrays 30 size_prog = Ok q /\ den uneven q = Ok (VArr (ascalar (SI 3%Z))).
Proof.
  split. { apply env_typed_upd; [intros s t H; discriminate|]. split; [|reflexivity]. repeat split; vm_compute; auto. }
  split; [vm_compute; reflexivity|]. eexists. split; vm_compute; reflexivity.
Qed.
End Samples.

Print Assumptions C12_converted.
Print Assumptions C12_result_records_refuted.
Print Assumptions C12_rank2_refuted.
Print Assumptions C12_size_check_refuted.
