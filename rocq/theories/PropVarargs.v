(** Properties C27 and C48 for the library functions of any number of arguments. *)
From Verif Require Import Base Scalar Tensor Types Sym Phi Den Layout Comprehension ComprehensionSem Slice WhereVec PropComprehension PropFrontend Varargs Sample.

Section Props.
Context {FO : FloatOps} {EX : Externs}.

Lemma std_concat_parts (E : env) (args : list (phi * layout)) : forall a l r vs ns,
  std_concat (OArr a l) (map (fun p => OArr (fst p) (snd p)) args) = Ok r ->
  mapM (den E) (a :: map fst args) = Ok vs -> mapM (fun v => vdim v 0) vs = Ok ns ->
  exists e, r = OArr e l /\ Forall (fun p => snd p = l) args /\ forall v, den E e = Ok v ->
    vdim v 0 = Ok (list_sum ns) /\
    forall j k w n, nth_error vs j = Some w -> nth_error ns j = Some n -> k < n ->
      vget v (Z.of_nat (list_sum (firstn j ns) + k)) = vget w (Z.of_nat k).
Proof.
  induction args as [|[b lb] args IH]; intros a l r vs ns H D N; cbn [map std_concat] in H.
  - injection H as <-. exists a. split; [reflexivity|]. split; [constructor|]. intros v V.
    cbn [map mapM] in D. rewrite V in D. injection D as <-. cbn [mapM] in N. apply bind_ok in N as (n & N & Q). injection Q as <-.
    split; [cbn; rewrite Nat.add_0_r; exact N|]. intros [|[|j]] k w m Hw Hm Hk; try discriminate. injection Hw as <-. reflexivity.
  - apply bind_ok in H as (t & T & H). cbn [map mapM] in D. apply bind_ok in D as (va & Da & D). apply bind_ok in D as (vt & Dt & D).
    injection D as <-. cbn [mapM] in N. apply bind_ok in N as (na & Na & N). apply bind_ok in N as (nt & Nt & N). injection N as <-.
    destruct (IH b lb t vt nt T Dt Nt) as (e & -> & F & V). destruct l as [|s|?|? ?]; try discriminate H.
    pose proof H as H'. cbn [vec_concat] in H'. apply bind_ok in H' as (u & G & H'). apply guard_ok, layout_eqb_eq in G.
    apply bind_ok in H' as (q & Q & H'). apply mk_ok in Q as [-> _]. injection H' as <-. subst lb.
    exists (PConcat a e). split; [reflexivity|]. split; [constructor; auto|]. intros v Dv.
    pose proof Dv as Dv'. cbn [den] in Dv'. rewrite Da in Dv'. cbn [bind] in Dv'. apply bind_ok in Dv' as (ve & De & _).
    destruct (V ve De) as [VD VG]. destruct (C48_concat E a e s (LVec s) _ va ve na (list_sum nt) H Da De Na VD) as [_ C].
    destruct (C (SArr v (LVec s))) as (v' & Q & Vd & V1 & V2); [simpl; cbn [den] in Dv; rewrite Dv; reflexivity|].
    injection Q as <-. split; [exact Vd|]. intros [|j] k w n Hw Hn Hk; cbn in Hw, Hn.
    + injection Hw as <-. injection Hn as <-. cbn. apply V1. exact Hk.
    + rewrite <- (VG j k w n Hw Hn Hk). cbn [firstn list_sum fold_right]. rewrite <- Nat.add_assoc. apply V2.
      assert (L : list_sum nt = list_sum (firstn j nt) + list_sum (skipn j nt)).
      { rewrite <- list_sum_app, firstn_skipn. reflexivity. }
      assert (n <= list_sum (skipn j nt)).
      { clear - Hn. revert nt Hn. induction j as [|j IH]; intros [|m nt] Hn; try discriminate; cbn in *; [injection Hn as ->; lia|]. apply IH. exact Hn. }
      fold (list_sum (firstn j nt)). lia.
Qed.

(** [concat(a, b, ...)] has the elements of the arguments one after another; all
    must have the same layout. *)
Theorem C48_concat_all (E : env) a l (args : list (phi * layout)) r vs ns :
  std_concat (OArr a l) (map (fun p => OArr (fst p) (snd p)) args) = Ok r ->
  mapM (den E) (a :: map fst args) = Ok vs -> mapM (fun v => vdim v 0) vs = Ok ns ->
  Forall (fun p => snd p = l) args /\ forall s, oden E r = Ok s -> exists v, s = SArr v l /\ vdim v 0 = Ok (list_sum ns) /\
    forall j k w n, nth_error vs j = Some w -> nth_error ns j = Some n -> k < n ->
      vget v (Z.of_nat (list_sum (firstn j ns) + k)) = vget w (Z.of_nat k).
Proof.
  intros H D N. destruct (std_concat_parts E args a l r vs ns H D N) as (e & -> & F & V). split; [exact F|].
  intros s S. cbn [oden] in S. apply bind_ok in S as (v & Dv & S). injection S as <-. exists v. split; [reflexivity|]. exact (V v Dv).
Qed.

(** Scalars with the values [zs], of integers ([c] is [SI]) or floats ([SF]) *)
Definition scalars_are {A} (c : A -> scalar) (E : env) (args : list obj) (zs : list A) : Prop :=
  Forall2 (fun x z => oden E x = Ok (SArr (vscalar (c z)) LAtom)) args zs.

Lemma extremum_parts {A} (c : A -> scalar) (E : env) (o : bop) (f : A -> A -> A) :
  (forall x y, sem_bin o (c x) (c y) = Some (c (f x y))) -> forall ws zs e l z r,
  extremum_go o e l ws = Ok r -> l = LAtom -> den E e = Ok (vscalar (c z)) ->
  Forall2 (fun w y => den E (fst w) = Ok (vscalar (c y)) /\ snd w = LAtom) ws zs ->
  oden E r = Ok (SArr (vscalar (c (fold_left f zs z))) LAtom).
Proof.
  intros SB ws. induction ws as [|w ws IH]; intros zs e l z r H -> D F; inversion F as [|? ? ? ? [D2 _]]; subst; cbn [extremum_go fold_left] in *.
  - injection H as <-. cbn [oden]. rewrite D. reflexivity.
  - apply bind_ok in H as (u & _ & H). apply bind_ok in H as (q & Q & H). apply mk_ok in Q as [-> _].
    eapply IH; eauto. cbn [den]. rewrite D, D2. cbn. rewrite SB. reflexivity.
Qed.

Lemma fold_least {A} (P : A -> Prop) (f : A -> A -> A) (R : A -> A -> Prop) :
  (forall x, P x -> R x x) -> (forall x y z, P x -> P y -> P z -> R x y -> R y z -> R x z) ->
  (forall x y, P x -> P y -> (f x y = x \/ f x y = y) /\ R (f x y) x /\ R (f x y) y) ->
  forall zs z, (forall y, In y (z :: zs) -> P y) ->
  In (fold_left f zs z) (z :: zs) /\ forall y, In y (z :: zs) -> R (fold_left f zs z) y.
Proof.
  intros RR RT RF zs. induction zs as [|x zs IH]; intros z PA; cbn [fold_left].
  - split; [left; reflexivity|]. intros y [<-|[]]. apply RR, PA. left. reflexivity.
  - pose proof (PA z (or_introl eq_refl)) as Pz. pose proof (PA x (or_intror (or_introl eq_refl))) as Px.
    destruct (RF z x Pz Px) as (C & R1 & R2). assert (Pf : P (f z x)) by (destruct C as [->| ->]; assumption).
    destruct (IH (f z x)) as [I L]; [intros y [<-|Y]; [exact Pf|apply PA; right; right; exact Y]|].
    assert (In1 : In (fold_left f zs (f z x)) (z :: x :: zs)).
    { destruct I as [I|I]; [|right; right; exact I]. rewrite <- I. destruct C as [->| ->]; [left|right; left]; reflexivity. }
    split; [exact In1|]. intros y Y. pose proof (PA _ In1) as Pm. pose proof (PA _ Y) as Py.
    destruct Y as [<-|[<-|Y]]; [| |apply L; right; exact Y]; (eapply (RT _ (f z x)); [assumption..|apply L; left; reflexivity|assumption]).
Qed.

Lemma wrap_all_vals {A} (c : A -> scalar) (E : env) args : forall zs ws, mapM wrap args = Ok ws -> scalars_are c E args zs ->
  Forall2 (fun w y => den E (fst w) = Ok (vscalar (c y)) /\ snd w = LAtom) ws zs.
Proof.
  unfold scalars_are. induction args as [|x args IH]; intros zs ws H F; inversion F; subst; cbn [mapM] in H.
  - injection H as <-. constructor.
  - apply bind_ok in H as (w & W & H). apply bind_ok in H as (ws' & W' & H). injection H as <-. constructor; [|apply IH; auto].
    apply oden_wrap in H2 as (e & We & De). rewrite W in We. injection We as ->. auto.
Qed.

Lemma extremum_all {A} (c : A -> scalar) (P : A -> Prop) (E : env) (o : bop) (f : A -> A -> A) (R : A -> A -> Prop) args zs r :
  (forall x y, sem_bin o (c x) (c y) = Some (c (f x y))) ->
  (forall x, P x -> R x x) -> (forall x y z, P x -> P y -> P z -> R x y -> R y z -> R x z) ->
  (forall x y, P x -> P y -> (f x y = x \/ f x y = y) /\ R (f x y) x /\ R (f x y) y) ->
  std_extremum o args = Ok r -> scalars_are c E args zs -> (forall z, In z zs -> P z) ->
  exists m, oden E r = Ok (SArr (vscalar (c m)) LAtom) /\ In m zs /\ forall z, In z zs -> R m z.
Proof.
  intros SB RR RT RF H F PA. unfold std_extremum in H. apply bind_ok in H as (ws & W & H).
  pose proof (wrap_all_vals c E args zs ws W F) as V. destruct V as [|w z ws zs [D L] V]; [discriminate|].
  exists (fold_left f zs z). split; [eapply extremum_parts; eauto|]. eapply fold_least; eauto.
Qed.

(** [min(x, ...)] of integers is one of them, and the least; [max(x, ...)] the
    greatest. *)
Theorem C27_min (E : env) args zs r : std_extremum BMin args = Ok r -> scalars_are SI E args zs ->
  exists m, oden E r = Ok (SArr (vint m) LAtom) /\ In m zs /\ forall z, In z zs -> (m <= z)%Z.
Proof.
  intros H F. apply (extremum_all SI (fun _ => True) E BMin Z.min Z.le args zs r); auto; try (intros; lia); reflexivity.
Qed.
Theorem C27_max (E : env) args zs r : std_extremum BMax args = Ok r -> scalars_are SI E args zs ->
  exists m, oden E r = Ok (SArr (vint m) LAtom) /\ In m zs /\ forall z, In z zs -> (z <= m)%Z.
Proof.
  intros H F. apply (extremum_all SI (fun _ => True) E BMax Z.max (fun x y => (y <= x)%Z) args zs r); auto; try (intros; lia); reflexivity.
Qed.
(** Likewise of floats that are not NaN *)
Theorem C27_min_floats (P : F -> Prop) (E : env) args zs r : selects P fleb fmin ->
  std_extremum BMin args = Ok r -> scalars_are SF E args zs -> (forall z, In z zs -> P z) ->
  exists m, oden E r = Ok (SArr (vscalar (SF m)) LAtom) /\ In m zs /\ forall z, In z zs -> fleb m z = true.
Proof.
  intros (R & T & S) H D PA. apply (extremum_all SF P E BMin fmin (fun x y => fleb x y = true) args zs r); auto.
Qed.
Theorem C27_max_floats (P : F -> Prop) (E : env) args zs r : selects P (fun a b => fleb b a) fmax ->
  std_extremum BMax args = Ok r -> scalars_are SF E args zs -> (forall z, In z zs -> P z) ->
  exists m, oden E r = Ok (SArr (vscalar (SF m)) LAtom) /\ In m zs /\ forall z, In z zs -> fleb z m = true.
Proof.
  intros (R & T & S) H D PA. apply (extremum_all SF P E BMax fmax (fun x y => fleb y x = true) args zs r); auto; eauto.
Qed.

(** Without arguments [min] raises an exception; an array is returned as it is,
    but has no [min] method. *)
Theorem C27_min_arguments o l args r : std_extremum o args = Ok r ->
  args <> [] /\ (forall e x rest, args = OArr e (LVec l) :: x :: rest -> False).
Proof.
  intros H. split; [intros ->; discriminate|]. intros e x rest ->. unfold std_extremum in H. cbn [mapM wrap bind] in H.
  apply bind_ok in H as (ws & W & H). apply bind_ok in W as (u & W & Q). apply bind_ok in W as (w & _ & W).
  apply bind_ok in W as (ws' & _ & W). injection W as <-. injection Q as <-. discriminate.
Qed.
End Props.

Section Samples.
#[local] Existing Instance zfloat.
#[local] Existing Instance no_externs.

(** concat(a, b, b) for arrays of pairs of sizes 2 and 1 *)
Example C48_concat_all_example :
  let kp := TPair (TScalar KInt) (TScalar KInt) in
  let a := PStore (SV 0) (TVec kp) in let b := PStore (SV 1) (TVec kp) in
  let col := fun l => VArr (mkArr KInt [length l] (map SI l)) in
  let va := VPair (col [1; 3]%Z) (col [2; 4]%Z) in let vb := VPair (col [5]%Z) (col [6]%Z) in
  let E := upd (upd empty_env (SV 0) va) (SV 1) vb in
  let l := LVec (LPos [LAtom; LAtom]) in
  mapM (den E) (a :: map fst [(b, l); (b, l)]) = Ok [va; vb; vb] /\ mapM (fun v => vdim v 0) [va; vb; vb] = Ok [2; 1; 1] /\
  exists r, std_concat (OArr a l) (map (fun p => OArr (fst p) (snd p)) [(b, l); (b, l)]) = Ok r /\
    oden E r = Ok (SArr (VPair (col [1; 3; 5; 5]%Z) (col [2; 4; 6; 6]%Z)) l).
Proof. cbv zeta. split; [reflexivity|]. split; [reflexivity|]. eexists. split; vm_compute; reflexivity. Qed.

(** min(x, 3, 7) and max(x, 3, 7) for x = 5 *)
Example C27_min_example :
  let x := OArr (PStore (SV 0) (TScalar KInt)) LAtom in
  let E := upd empty_env (SV 0) (vint 5) in
  let args := [x; ORaw (ascalar (SI 3)); ORaw (ascalar (SI 7))] in
  scalars_are SI E args [5; 3; 7]%Z /\
  (exists r, std_extremum BMin args = Ok r /\ oden E r = Ok (SArr (vint 3) LAtom)) /\
  (exists r, std_extremum BMax args = Ok r /\ oden E r = Ok (SArr (vint 7) LAtom)).
Proof.
  cbv zeta. split; [repeat constructor; reflexivity|]. split; eexists; split; vm_compute; reflexivity.
Qed.
(** min(x, 3.0, 7.0) for x = 5.0 *)
Example C27_min_floats_example :
  let x := OArr (PStore (SV 0) (TScalar KFloat)) LAtom in
  let E := upd empty_env (SV 0) (vscalar (SF 5%Z)) in
  let args := [x; ORaw (ascalar (SF 3%Z)); ORaw (ascalar (SF 7%Z))] in
  selects (fun _ => True) fleb fmin /\ selects (fun _ => True) (fun a b => fleb b a) fmax /\ scalars_are SF E args [5; 3; 7]%Z /\
  (exists r, std_extremum BMin args = Ok r /\ oden E r = Ok (SArr (vscalar (SF 3%Z)) LAtom)) /\
  (exists r, std_extremum BMax args = Ok r /\ oden E r = Ok (SArr (vscalar (SF 7%Z)) LAtom)).
Proof.
  cbv zeta. split; [|split; [|split; [repeat constructor; reflexivity|split; eexists; split; vm_compute; reflexivity]]];
    (split; [|split]); cbn; intros; rewrite ?Z.leb_le in *; try split; try lia; rewrite ?Z.leb_le; lia.
Qed.
End Samples.

Print Assumptions C48_concat_all.
Print Assumptions C27_min.
Print Assumptions C27_max.
Print Assumptions C27_min_floats.
Print Assumptions C27_max_floats.
Print Assumptions C27_min_arguments.
