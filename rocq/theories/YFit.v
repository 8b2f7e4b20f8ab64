(** Array code whose in-place operations fit.

    An operation marked by apply_inplace_on_temporaries (phi_to_yarr.py:523-560)
    is computed into the array of one of its operands
    (numpy_backend.py:136-172, out=...), which raises if the result has another
    shape.  [yeval_fit] is [yeval] with that check. *)
From Verif Require Import Base Scalar Tensor Types Sym Phi Den NdOps Term PhiTerm NdFacts Yarr YTerm.

Section YFit.
Context {FO : FloatOps} {EX : Externs} {PO : PadOps}.

(** The marked operand has the shape of the result. *)
Definition fits_mark (i : option nat) (a b c : arr) : bool :=
  match i with
  | Some 0 => list_nat_eqb (ashape a) (ashape c)
  | Some 1 => list_nat_eqb (ashape b) (ashape c)
  | _ => true
  end.

Fixpoint yeval_fit (R : yenv) (e : yarr) {struct e} : res yval :=
  match e with
  | YConst a => Ok (YA a)
  | YVar x _ => of_opt EUnbound (R (SV x))
  | YLet x b body => let* v := yeval_fit R b in yeval_fit (upd R (SV x) v) body
  | YDim ax t => let* v := yeval_fit R t in let* a := ya v in let* b := nd_dim ax a in Ok (YA b)
  | YRange s =>
      let* v := yeval_fit R s in let* a := ya v in let* z := as_int a in Ok (YA (nd_range z))
  | YConcat ops ax =>
      let* vs := mapM (yeval_fit R) ops in let* l := mapM ya vs in
      let* b := nd_concat ax l in Ok (YA b)
  | YTranspose pi t =>
      let* v := yeval_fit R t in let* a := ya v in let* b := nd_transpose pi a in Ok (YA b)
  | YSqueeze axes t =>
      let* v := yeval_fit R t in let* a := ya v in let* b := nd_squeeze axes a in Ok (YA b)
  | YUnsqueeze axes t =>
      let* v := yeval_fit R t in let* a := ya v in let* b := nd_unsqueeze axes a in Ok (YA b)
  | YGather ax t i =>
      let* v := yeval_fit R t in let* w := yeval_fit R i in
      let* a := ya v in let* b := ya w in
      let* c := nd_gather ax a b in Ok (YA c)
  | YTake t items =>
      let* v := yeval_fit R t in
      let* ws := mapM (omapM (fun y => let* w := yeval_fit R y in ya w)) items in
      let* a := ya v in
      let* c := nd_take a ws in Ok (YA c)
  | YSlice t l r =>
      let* v := yeval_fit R t in
      let* ls := mapM (omapM (fun y => let* w := yeval_fit R y in let* a := ya w in as_int a)) l in
      let* rs := mapM (omapM (fun y => let* w := yeval_fit R y in let* a := ya w in as_int a)) r in
      let* a := ya v in
      let* c := nd_slice ls rs a in Ok (YA c)
  | YPad t l r =>
      let* v := yeval_fit R t in
      let* ls := mapM (omapM (fun y => let* w := yeval_fit R y in let* a := ya w in as_int a)) l in
      let* rs := mapM (omapM (fun y => let* w := yeval_fit R y in let* a := ya w in as_int a)) r in
      let* a := ya v in
      let or0 := fun o => match o with Some z => z | None => 0%Z end in
      let* c := pad_call a (combine (map or0 ls) (map or0 rs)) in Ok (YA c)
  | YRepeat ax c t =>
      let* v := yeval_fit R t in let* w := yeval_fit R c in
      let* a := ya v in let* b := ya w in let* z := as_int b in
      let* c := nd_repeat ax z a in Ok (YA c)
  | YReduceAxis r ax t =>
      let* v := yeval_fit R t in let* a := ya v in let* b := nd_reduce r ax a in Ok (YA b)
  | YCast k t => let* v := yeval_fit R t in let* a := ya v in let* b := nd_cast k a in Ok (YA b)
  | YUn o t => let* v := yeval_fit R t in let* a := ya v in let* b := nd_un o a in Ok (YA b)
  | YBin o x y i =>
      let* v := yeval_fit R x in let* w := yeval_fit R y in
      let* a := ya v in let* b := ya w in
      let* c := nd_bin o a b in
      let* _ := guard (fits_mark i a b c) EValue in Ok (YA c)
  | YWhere x y z =>
      let* u := yeval_fit R x in let* v := yeval_fit R y in let* w := yeval_fit R z in
      let* a := ya u in let* b := ya v in let* c := ya w in
      let* d := nd_where a b c in Ok (YA d)
  | YFold c size acc init body =>
      let* v0 := yeval_fit R init in
      let* w := yeval_fit R size in let* b := ya w in let* z := as_int b in
      iter_res (fun k v => yeval_fit (upd (upd R (SV acc) v) (SV c) (YA (ascalar (SI (Z.of_nat k))))) body)
               0 (Z.to_nat z) v0
  | YReduce init x y xy vecs ax =>
      let* v0 := yeval_fit R init in
      let* vs := yeval_fit R vecs in
      reduce_call (fun a b => yeval_fit (upd (upd R (SV x) a) (SV y) b) xy) ax v0 vs
  | YTuple ops =>
      let* vs := mapM (yeval_fit R) ops in let* l := mapM ya vs in Ok (YT l)
  | YUntuple at_ _ t =>
      let* v := yeval_fit R t in
      match v with
      | YT l => let* a := of_opt EShape (nth_error l at_) in Ok (YA a)
      | YA _ => Err EType
      end
  | YEinsum s ops =>
      let* vs := mapM (yeval_fit R) ops in let* l := mapM ya vs in
      let* b := nd_einsum s l in Ok (YA b)
  | YExt _ f ops =>
      let* vs := mapM (yeval_fit R) ops in let* l := mapM ya vs in
      let* b := ext_call f l in Ok (YA b)
  end.

Ltac yl cs H :=
  let a := fresh "q" in let b := fresh "q" in let c := fresh "q" in let r := fresh "qs" in
  destruct cs as [|a [|b [|c r]]]; simpl in H; try discriminate H;
  try (destruct r; [|discriminate H]).

Ltac ychildren cs H :=
  match type of H with
  | _ = length (ysubs (YConcat _ _)) => idtac
  | _ = length (ysubs (YTuple _)) => idtac
  | _ = length (ysubs (YEinsum _ _)) => idtac
  | _ = length (ysubs (YExt _ _ _)) => idtac
  | _ = length (ysubs (YTake _ ?l)) =>
      let t := fresh "q" in let r := fresh "qs" in
      destruct cs as [|t r]; [discriminate H|]; injection H as H;
      let l' := fresh "l'" in let E := fresh "E" in let S1 := fresh "S1" in let S2 := fresh "S2" in
      destruct (fill_split0 l r H) as (l' & E & S1 & S2)
  | _ = length (ysubs (YSlice _ ?l ?m)) =>
      let t := fresh "q" in let r := fresh "qs" in
      destruct cs as [|t r]; [discriminate H|]; injection H as H; rewrite app_length in H;
      let c1 := fresh "cl" in let c2 := fresh "cr" in let H1 := fresh "HL" in let H2 := fresh "HR" in
      destruct (split_app r _ _ H) as (c1 & c2 & -> & H1 & H2);
      let l' := fresh "l'" in let E := fresh "E" in let S1 := fresh "S1" in let S2 := fresh "S2" in
      let m' := fresh "m'" in let E' := fresh "E'" in let S1' := fresh "S1'" in let S2' := fresh "S2'" in
      destruct (fill_split l c1 c2 H1) as (l' & E & S1 & S2);
      destruct (fill_split0 m c2 H2) as (m' & E' & S1' & S2')
  | _ = length (ysubs (YPad _ ?l ?m)) =>
      let t := fresh "q" in let r := fresh "qs" in
      destruct cs as [|t r]; [discriminate H|]; injection H as H; rewrite app_length in H;
      let c1 := fresh "cl" in let c2 := fresh "cr" in let H1 := fresh "HL" in let H2 := fresh "HR" in
      destruct (split_app r _ _ H) as (c1 & c2 & -> & H1 & H2);
      let l' := fresh "l'" in let E := fresh "E" in let S1 := fresh "S1" in let S2 := fresh "S2" in
      let m' := fresh "m'" in let E' := fresh "E'" in let S1' := fresh "S1'" in let S2' := fresh "S2'" in
      destruct (fill_split l c1 c2 H1) as (l' & E & S1 & S2);
      destruct (fill_split0 m c2 H2) as (m' & E' & S1' & S2')
  | _ => yl cs H
  end.

Ltac rb := apply ref_bind; [|intros].

Ltac rr := first [apply ref_refl | rb; [apply ref_refl|rr]].

Global Instance YFitT : TermSem yarr yval yeval_fit.
Proof.
  constructor.
  - intros E t s H. destruct t; simpl in *; try discriminate. injection H as <-. reflexivity.
  - intros E t x b body H. destruct t; simpl in *; try discriminate. injection H as -> -> ->. reflexivity.
  - intros t cs E1 E2 Hs Hl H. simpl in Hs, Hl.
    assert (H0 : forall k c c', nth_error (ysubs t) k = Some c -> nth_error cs k = Some c' ->
                 nth_error (yscopes t) k = Some [] -> ref (yeval_fit E1 c) (yeval_fit E2 c')).
    { intros k c c' Hc Hc' Hsc. apply (H k c c' [] [] Hc Hc' Hsc eq_refl). }
    assert (H1 : yscopes t = map (fun _ => []) (ysubs t) ->
                 forall k c c', nth_error (ysubs t) k = Some c -> nth_error cs k = Some c' ->
                 ref (yeval_fit E1 c) (yeval_fit E2 c')).
    { intros Hsc k c c' Hc Hc'. apply (H0 k); auto. rewrite Hsc, nth_error_map, Hc. reflexivity. }
    assert (HM : yscopes t = map (fun _ => []) (ysubs t) ->
                 ref (mapM (yeval_fit E1) (ysubs t)) (mapM (yeval_fit E2) cs)).
    { intros Hsc. apply ref_mapM2; [symmetry; exact Hl|]. intros k x y Hx Hy. apply (H1 Hsc k); auto. }
    destruct t; simpl in Hs; try discriminate;
      try (specialize (H1 eq_refl)); try (specialize (HM eq_refl)); cbn [ysubs] in *.
    + simpl. apply ref_refl.
    + ychildren cs Hl. simpl. rb; [apply (H0 0); reflexivity|].
      apply (H 1 t2 q0 [SV x] [(SV x, a)]); reflexivity.
    + ychildren cs Hl. simpl. rb; [apply (H1 0); reflexivity|]. rr.
    + ychildren cs Hl. simpl. rb; [apply (H1 0); reflexivity|]. rr.
    + simpl. rb; [exact HM|]. rr.
    + ychildren cs Hl. simpl. rb; [apply (H1 0); reflexivity|]. rr.
    + ychildren cs Hl. simpl. rb; [apply (H1 0); reflexivity|]. rr.
    + ychildren cs Hl. simpl. rb; [apply (H1 0); reflexivity|]. rr.
    + ychildren cs Hl. simpl. rb; [apply (H1 0); reflexivity|]. rb; [apply (H1 1); reflexivity|]. rr.
    + destruct cs as [|q qs]; [discriminate Hl|]. injection Hl as Hl.
      destruct (fill_split0 items qs Hl) as (l' & E & S1 & S2).
      simpl. rewrite E. simpl. rb; [apply (H1 0); reflexivity|].
      rb; [|rr]. apply ref_omapM; auto. rewrite S1. intros k u w Hu Hw.
      rb; [|rr]. apply (H1 (S k)); auto.
    + destruct cs as [|q qs]; [discriminate Hl|]. injection Hl as Hl. rewrite app_length in Hl.
      destruct (split_app qs _ _ Hl) as (c1 & c2 & -> & L1 & L2).
      destruct (fill_split starts c1 c2 L1) as (l' & E & S1 & S2).
      destruct (fill_split0 stops c2 L2) as (m' & E' & S1' & S2').
      simpl. rewrite E. simpl. rewrite E'. simpl. rb; [apply (H1 0); reflexivity|].
      rb; [|rb; [|rr]].
      * apply ref_omapM; auto. rewrite S1. intros k u w Hu Hw.
        rb; [|rr]. apply (H1 (S k)); simpl; rewrite nth_error_app1; auto; apply nth_error_Some; congruence.
      * apply ref_omapM; auto. rewrite S1'. intros k u w Hu Hw.
        rb; [|rr]. apply (H1 (S (length c1 + k))); simpl; rewrite nth_error_app2 by lia.
        -- rewrite L1. replace (length (somes starts) + k - length (somes starts)) with k by lia. auto.
        -- replace (length c1 + k - length c1) with k by lia. auto.
    + destruct cs as [|q qs]; [discriminate Hl|]. injection Hl as Hl. rewrite app_length in Hl.
      destruct (split_app qs _ _ Hl) as (c1 & c2 & -> & L1 & L2).
      destruct (fill_split lefts c1 c2 L1) as (l' & E & S1 & S2).
      destruct (fill_split0 rights c2 L2) as (m' & E' & S1' & S2').
      simpl. rewrite E. simpl. rewrite E'. simpl. rb; [apply (H1 0); reflexivity|].
      rb; [|rb; [|rr]].
      * apply ref_omapM; auto. rewrite S1. intros k u w Hu Hw.
        rb; [|rr]. apply (H1 (S k)); simpl; rewrite nth_error_app1; auto; apply nth_error_Some; congruence.
      * apply ref_omapM; auto. rewrite S1'. intros k u w Hu Hw.
        rb; [|rr]. apply (H1 (S (length c1 + k))); simpl; rewrite nth_error_app2 by lia.
        -- rewrite L1. replace (length (somes lefts) + k - length (somes lefts)) with k by lia. auto.
        -- replace (length c1 + k - length c1) with k by lia. auto.
    + ychildren cs Hl. simpl. rb; [apply (H1 1); reflexivity|]. rb; [apply (H1 0); reflexivity|]. rr.
    + ychildren cs Hl. simpl. rb; [apply (H1 0); reflexivity|]. rr.
    + ychildren cs Hl. simpl. rb; [apply (H1 0); reflexivity|]. rr.
    + ychildren cs Hl. simpl. rb; [apply (H1 0); reflexivity|]. rr.
    + ychildren cs Hl. simpl. rb; [apply (H1 0); reflexivity|]. rb; [apply (H1 1); reflexivity|]. rr.
    + ychildren cs Hl. simpl. rb; [apply (H1 0); reflexivity|]. rb; [apply (H1 1); reflexivity|].
      rb; [apply (H1 2); reflexivity|]. rr.
    + ychildren cs Hl. simpl. rb; [apply (H0 1); reflexivity|]. rb; [apply (H0 0); reflexivity|].
      rb; [apply ref_refl|]. rb; [apply ref_refl|]. apply ref_iter. intros k v.
      apply (H 2 t3 q1 [SV acc; SV c] [(SV acc, v); (SV c, YA (ascalar (SI (Z.of_nat k))))]); reflexivity.
    + ychildren cs Hl. simpl. rb; [apply (H0 0); reflexivity|]. rb; [apply (H0 2); reflexivity|].
      apply ref_reduce. intros u w.
      apply (H 1 t2 q0 [SV x; SV y] [(SV x, u); (SV y, w)]); reflexivity.
    + simpl. rb; [exact HM|]. rr.
    + ychildren cs Hl. simpl. rb; [apply (H1 0); reflexivity|]. rr.
    + simpl. rb; [exact HM|]. rr.
    + simpl. rb; [exact HM|]. rr.
Qed.

Lemma fit_drop {A B} (m : res A) (k : A -> res B) r : (forall a, ref (k a) r) -> ref (bind m k) r.
Proof. clear. intros H v Hv. apply bind_ok in Hv as (a & _ & Hv). exact (H a v Hv). Qed.
Lemma fit_mapM {A B} (P : A -> Prop) (f g : A -> res B) l : Forall P l -> (forall a, P a -> ref (f a) (g a)) -> ref (mapM f l) (mapM g l).
Proof. clear. intros F H. apply ref_mapM. intros a Ha. apply H. rewrite Forall_forall in F. auto. Qed.

(** A value found with the check is the value. *)
Lemma fit_yeval e : forall R, ref (yeval_fit R e) (yeval R e).
Proof.
  assert (M : forall R ops, Forall (fun e => forall R, ref (yeval_fit R e) (yeval R e)) ops -> ref (mapM (yeval_fit R) ops) (mapM (yeval R) ops)).
  { intros R ops Q. apply (fit_mapM _ _ _ _ Q). auto. }
  assert (N : forall {B} (g : yval -> res B) R items, Forall (oall (fun e => forall R, ref (yeval_fit R e) (yeval R e))) items ->
     ref (mapM (omapM (fun y => let* w := yeval_fit R y in g w)) items) (mapM (omapM (fun y => let* w := yeval R y in g w)) items)).
  { intros B g R items Q. apply (fit_mapM _ _ _ _ Q). intros [y|] Hy; cbn [omapM]; [|apply ref_refl].
    rb; [|apply ref_refl]. rb; [apply Hy|apply ref_refl]. }
  induction e using yarr_ind'; intros R; cbn [yeval_fit yeval];
    try solve [apply ref_refl | repeat first [apply ref_refl | apply IHe | apply IHe1 | apply IHe2 | apply IHe3 | apply M; assumption | apply N; assumption | rb]].
  - rb; [apply IHe1|]. rb; [apply IHe2|]. rb; [apply ref_refl|]. rb; [apply ref_refl|]. rb; [apply ref_refl|]. apply fit_drop. intros _. apply ref_refl.
  - rb; [apply IHe2|]. rb; [apply IHe1|]. rb; [apply ref_refl|]. rb; [apply ref_refl|]. apply ref_iter. intros. apply IHe3.
  - rb; [apply IHe1|]. rb; [apply IHe3|]. apply ref_reduce. intros. apply IHe2.
Qed.

(** Without marks there is nothing to check. *)
Definition no_marks (e : yarr) : Prop := forall o a b i, sub_of (YBin o a b i) e -> i = None.
Lemma yeval_fits e : forall R, no_marks e -> ref (yeval R e) (yeval_fit R e).
Proof.
  set (cl := fun e => forall R, no_marks e -> ref (yeval R e) (yeval_fit R e)).
  assert (M : forall R ops, Forall cl ops -> Forall no_marks ops -> ref (mapM (yeval R) ops) (mapM (yeval_fit R) ops)).
  { intros R ops Q U. apply (fit_mapM (fun o => cl o /\ no_marks o)); [|intros a [Ha Hu]; auto].
    rewrite Forall_forall in *. intros a Ha. split; auto. }
  assert (N : forall {B} (g : yval -> res B) R items, Forall (oall cl) items -> Forall no_marks (somes items) ->
     ref (mapM (omapM (fun y => let* w := yeval R y in g w)) items) (mapM (omapM (fun y => let* w := yeval_fit R y in g w)) items)).
  { intros B g R items Q U. induction items as [|o items IH]; cbn [mapM]; [apply ref_refl|]. inversion Q as [|? ? Q1 Q2]; subst.
    unfold somes in U. cbn [flat_map] in U. apply Forall_app in U as [U1 U2].
    rb; [|rb; [apply IH; auto|apply ref_refl]]. destruct o as [y|]; cbn [omapM]; [|apply ref_refl].
    rb; [|apply ref_refl]. rb; [|apply ref_refl]. apply Q1. inversion U1; auto. }
  change (cl e).
  assert (SB : forall e, no_marks e -> Forall no_marks (ysubs e)).
  { intros e0 U. rewrite Forall_forall. intros c Hc o a b i Hs. apply (U o a b i). eapply sub_step; eauto. }
  induction e using yarr_ind'; intros R U; pose proof (SB _ U) as S; cbn [ysubs] in S; cbn [yeval_fit yeval];
    repeat match goal with
    | S : Forall no_marks (_ :: _) |- _ => inversion S; clear S; subst
    | S : Forall no_marks (_ ++ _) |- _ => apply Forall_app in S as [? ?]
    end;
    try solve [apply ref_refl | repeat first [apply ref_refl | apply IHe; assumption | apply IHe1; assumption | apply IHe2; assumption | apply IHe3; assumption | apply M; assumption | apply N; assumption | rb]].
  - rb; [apply IHe1; auto|]. rb; [apply IHe2; auto|]. rewrite (U o e1 e2 i (sub_refl _)). apply ref_refl.
  - rb; [apply IHe2; auto|]. rb; [apply IHe1; auto|]. rb; [apply ref_refl|]. rb; [apply ref_refl|]. apply ref_iter. intros. apply IHe3; auto.
  - rb; [apply IHe1; auto|]. rb; [apply IHe3; auto|]. apply ref_reduce. intros. apply IHe2; auto.
Qed.
End YFit.
