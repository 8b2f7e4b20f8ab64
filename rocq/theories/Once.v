(** Outlining keeps programs defined whose loops are all executed.

    [outline] moves an expression out of the loops it does not depend on
    (ein/midend/lining.py:66-95).  A loop without iterations never evaluates
    its body, so the moved expression may raise where the program did not.
    [den_once] and [yeval_once] are the semantics [den] and [yeval] in which a
    fold or reduction without iterations is an error; where they have a value,
    [outline] keeps it.  [den_once true] further rejects what the interpreter
    does not compute as [den] does (ein/backend/naive.py:14-85): a comprehension
    of size 0, and sizes and elements of structures. *)
From Verif Require Import Base Scalar Tensor Types Sym Phi Den NdOps Term PhiTerm Yarr YTerm DenFree SpecPhi Lining Outline
  Dominators InlineMemo OutlinePass CodegenSafe Moments.

(** * A semantics that evaluates all of a term *)
Section Generic.
Context {T : Type} {O : TermOps T} {L : TermLaws T}.
Context {V : Type} {sem : genv V -> T -> res V} {S : TermSem T V sem}.

(** A node with a value has evaluated each of its children. *)
Definition visits_all : Prop := forall E t v k c sc, sem E t = Ok v ->
  nth_error (subs t) k = Some c -> nth_error (scopes t) k = Some sc ->
  exists l w, map fst l = sc /\ sem (upds E l) c = Ok w.
Hypothesis VA : visits_all.

Lemma visits_sub b t : sub_of b t -> forall E v,
  (forall n s, sub_of n t -> In s (capt n) -> ~ isfree s b) -> sem E t = Ok v -> exists w, sem E b = Ok w.
Proof.
  induction 1 as [t|b c t Hc Hs IH]; intros E v HC Hv; [eauto|].
  apply In_nth_error in Hc as [k Hk]. destruct (nth_error_scope _ _ _ Hk) as [sc Hsc].
  destruct (VA E t v k c sc Hv Hk Hsc) as (l & w & Hl & Hw).
  destruct (IH (upds E l) w) as (u & Hu); auto.
  { intros n s Hn. apply HC. eapply sub_of_trans; [exact Hn|]. eapply sub_step; [eapply nth_error_In; eauto|constructor]. }
  exists u. eapply (sem_coincidence b (upds E l) E); [|exact Hu].
  intros s Hf. apply upds_notin. rewrite Hl. intros Hi. apply (HC t s); auto; [constructor|].
  eapply scopes_capt; [eapply nth_error_In; eauto|auto].
Qed.

Lemma visits_needed p ins : ins_wf p ins -> unshadowed p -> ins_needed (sem := sem) p ins.
Proof.
  intros W U d x b E v Hd Hi Hv. destruct (iw_scope _ _ W d x b Hd Hi) as (Hs & _ & Hf).
  apply (visits_sub b d Hs E v); auto. intros n s Hn Hc Hb. apply (U d n s Hd Hn Hc). auto.
Qed.

Lemma outline_complete nxt p q E v : tidy nxt p -> outline nxt p = Ok q -> sem E p = Ok v -> sem E q = Ok v.
Proof.
  intros [DB AB] H Hv. unfold outline in H. rewrite inline_memo_eq in H by auto.
  apply bind_ok in H as ([] & _ & H).
  set (p1 := inline false p) in *.
  assert (T1 : tidy nxt p1) by (split; [apply inline_distinct; auto|apply inline_above; auto]).
  assert (V1 : sem E p1 = Ok v) by (apply inline_sem; auto; apply distinct_noshadow; auto).
  pose proof (cse_tidy nxt p1 T1) as C. destruct (bind_common_subexpressions (idom_of p1) nxt p1) as [ins1 nxt1].
  destruct C as (T2 & W1 & F1). pose proof (distinct_unshadowed _ (proj1 T1)) as U1.
  pose proof (apply_insertions_complete p1 ins1 W1 U1 E v (visits_needed p1 ins1 W1 U1) V1) as V2.
  set (p2 := apply_insertions p1 ins1) in *.
  apply bind_ok in H as ([] & Hc2 & H). apply check_tree in Hc2.
  pose proof (licm_tidy nxt1 p2 T2 Hc2) as C. destruct (loop_invariant_code_motion nxt1 p2) as [ins2 nxt2].
  destruct C as (T3 & W2 & F2). pose proof (distinct_unshadowed _ (proj1 T2)) as U2.
  pose proof (apply_insertions_complete p2 ins2 W2 U2 E v (visits_needed p2 ins2 W2 U2) V2) as V3.
  set (p3 := apply_insertions p2 ins2) in *.
  apply bind_ok in H as ([] & _ & H). rewrite inline_memo_eq in H by apply T3.
  apply bind_ok in H as ([] & Hc4 & H). injection H as <-.
  apply inline_sem; auto. apply distinct_noshadow. apply T3.
Qed.
End Generic.

Section Once.
Context {FO : FloatOps} {EX : Externs} {PO : PadOps}.

Variable st : bool.

(** With [st], not a structure. *)
Definition plain (v : val) : res unit :=
  match v with VArr _ => Ok tt | VPair _ _ => if st then Err EType else Ok tt end.

Fixpoint den_once (E : env) (e : phi) {struct e} : res val :=
  match e with
  | PConst a => Ok (VArr a)
  | PStore s _ => of_opt EUnbound (E s)
  | PLet x b body => let* v := den_once E b in den_once (upd E (SV x) v) body
  | PAssertEq t ops =>
      let* vs := mapM (den_once E) ops in
      let* zs := mapM val_int vs in
      let* _ := guard (all_equal zs) EAssert in
      den_once E t
  | PDim t axis => let* v := den_once E t in let* _ := plain v in let* n := vdim v axis in Ok (vnat n)
  | PGet t item =>
      let* v := den_once E t in
      let* _ := plain v in
      let* w := den_once E item in
      let* z := val_int w in
      vget v z
  | PCons a b => let* v := den_once E a in let* w := den_once E b in Ok (VPair v w)
  | PFirst t => let* v := den_once E t in let* p := as_pair v in Ok (fst p)
  | PSecond t => let* v := den_once E t in let* p := as_pair v in Ok (snd p)
  | PVec i size body =>
      let* vz := den_once E size in
      let* z := val_int vz in
      let* _ := guard (negb st || (1 <=? z)%Z) EValue in
      let* v0 := den_once (upd E (SX i) (vint 0)) body in
      let* _ := plain v0 in
      let* vs := mapM (fun k => den_once (upd E (SX i) (vnat k)) body) (seq 0 (Z.to_nat z)) in
      vstack v0 vs
  | PFold c size acc init body =>
      let* vz := den_once E size in
      let* z := val_int vz in
      let* _ := guard (1 <=? z)%Z EValue in
      let* v0 := den_once E init in
      iter_res (fun k v => den_once (upd (upd E (SV acc) v) (SV c) (vnat k)) body)
               0 (Z.to_nat z) v0
  | PReduce init x y xy vecs =>
      let* vs := mapM (den_once E) vecs in
      let* _ := mapM plain vs in
      let* ns := mapM (fun v => vdim v 0) vs in
      match ns with
      | [] => Err EValue
      | n :: ns' =>
          let* _ := guard (forallb (Nat.eqb n) ns') EValue in
          let* _ := guard (1 <=? n) EValue in
          let* v0 := den_once E init in
          iter_res (fun k v =>
              let* es := mapM (fun u => vget u (Z.of_nat k)) vs in
              match es with
              | [] => Err EType
              | e0 :: es' =>
                  den_once (upd (upd E (SV x) v) (SV y) (fold_left VPair es' e0)) xy
              end) 0 n v0
      end
  | PUn o a => let* v := den_once E a in lift1 (sem_un o) v
  | PBin o a b => let* v := den_once E a in let* w := den_once E b in lift2 (sem_bin o) v w
  | PWhere c a b =>
      let* u := den_once E c in let* v := den_once E a in let* w := den_once E b in lift3 sem_where u v w
  | PConcat a b => let* v := den_once E a in let* _ := plain v in
      let* w := den_once E b in let* _ := plain w in vconcat v w
  | PExt _ f ops =>
      let* vs := mapM (den_once E) ops in
      let* l := mapM as_arr vs in
      let* a := ext_call f l in Ok (VArr a)
  end.



(** The size of the axis a reduction runs along. *)
Definition rows_of (ax : nat) (v : yval) : res nat :=
  match v with
  | YA a | YT (a :: _) => of_opt EShape (nth_error (ashape a) ax)
  | YT [] => Err EValue
  end.

Fixpoint yeval_once (R : yenv) (e : yarr) {struct e} : res yval :=
  match e with
  | YConst a => Ok (YA a)
  | YVar x _ => of_opt EUnbound (R (SV x))
  | YLet x b body => let* v := yeval_once R b in yeval_once (upd R (SV x) v) body
  | YDim ax t => let* v := yeval_once R t in let* a := ya v in let* b := nd_dim ax a in Ok (YA b)
  | YRange s =>
      let* v := yeval_once R s in let* a := ya v in let* z := as_int a in Ok (YA (nd_range z))
  | YConcat ops ax =>
      let* vs := mapM (yeval_once R) ops in let* l := mapM ya vs in
      let* b := nd_concat ax l in Ok (YA b)
  | YTranspose pi t =>
      let* v := yeval_once R t in let* a := ya v in let* b := nd_transpose pi a in Ok (YA b)
  | YSqueeze axes t =>
      let* v := yeval_once R t in let* a := ya v in let* b := nd_squeeze axes a in Ok (YA b)
  | YUnsqueeze axes t =>
      let* v := yeval_once R t in let* a := ya v in let* b := nd_unsqueeze axes a in Ok (YA b)
  | YGather ax t i =>
      let* v := yeval_once R t in let* w := yeval_once R i in
      let* a := ya v in let* b := ya w in
      let* c := nd_gather ax a b in Ok (YA c)
  | YTake t items =>
      let* v := yeval_once R t in
      let* ws := mapM (omapM (fun y => let* w := yeval_once R y in ya w)) items in
      let* a := ya v in
      let* c := nd_take a ws in Ok (YA c)
  | YSlice t l r =>
      let* v := yeval_once R t in
      let* ls := mapM (omapM (fun y => let* w := yeval_once R y in let* a := ya w in as_int a)) l in
      let* rs := mapM (omapM (fun y => let* w := yeval_once R y in let* a := ya w in as_int a)) r in
      let* a := ya v in
      let* c := nd_slice ls rs a in Ok (YA c)
  | YPad t l r =>
      let* v := yeval_once R t in
      let* ls := mapM (omapM (fun y => let* w := yeval_once R y in let* a := ya w in as_int a)) l in
      let* rs := mapM (omapM (fun y => let* w := yeval_once R y in let* a := ya w in as_int a)) r in
      let* a := ya v in
      let or0 := fun o => match o with Some z => z | None => 0%Z end in
      let* c := pad_call a (combine (map or0 ls) (map or0 rs)) in Ok (YA c)
  | YRepeat ax c t =>
      let* v := yeval_once R t in let* w := yeval_once R c in
      let* a := ya v in let* b := ya w in let* z := as_int b in
      let* c := nd_repeat ax z a in Ok (YA c)
  | YReduceAxis r ax t =>
      let* v := yeval_once R t in let* a := ya v in let* b := nd_reduce r ax a in Ok (YA b)
  | YCast k t => let* v := yeval_once R t in let* a := ya v in let* b := nd_cast k a in Ok (YA b)
  | YUn o t => let* v := yeval_once R t in let* a := ya v in let* b := nd_un o a in Ok (YA b)
  | YBin o x y _ =>
      let* v := yeval_once R x in let* w := yeval_once R y in
      let* a := ya v in let* b := ya w in
      let* c := nd_bin o a b in Ok (YA c)
  | YWhere x y z =>
      let* u := yeval_once R x in let* v := yeval_once R y in let* w := yeval_once R z in
      let* a := ya u in let* b := ya v in let* c := ya w in
      let* d := nd_where a b c in Ok (YA d)
  | YFold c size acc init body =>
      let* v0 := yeval_once R init in
      let* w := yeval_once R size in let* b := ya w in let* z := as_int b in
      let* _ := guard (1 <=? z)%Z EValue in
      iter_res (fun k v => yeval_once (upd (upd R (SV acc) v) (SV c) (YA (ascalar (SI (Z.of_nat k))))) body)
               0 (Z.to_nat z) v0
  | YReduce init x y xy vecs ax =>
      let* v0 := yeval_once R init in
      let* vs := yeval_once R vecs in
      let* n := rows_of ax vs in
      let* _ := guard (1 <=? n) EValue in
      reduce_call (fun a b => yeval_once (upd (upd R (SV x) a) (SV y) b) xy) ax v0 vs
  | YTuple ops =>
      let* vs := mapM (yeval_once R) ops in let* l := mapM ya vs in Ok (YT l)
  | YUntuple at_ _ t =>
      let* v := yeval_once R t in
      match v with
      | YT l => let* a := of_opt EShape (nth_error l at_) in Ok (YA a)
      | YA _ => Err EType
      end
  | YEinsum s ops =>
      let* vs := mapM (yeval_once R) ops in let* l := mapM ya vs in
      let* b := nd_einsum s l in Ok (YA b)
  | YExt _ f ops =>
      let* vs := mapM (yeval_once R) ops in let* l := mapM ya vs in
      let* b := ext_call f l in Ok (YA b)
  end.


Ltac list_cases cs H :=
  let a := fresh "q" in let b := fresh "q" in let c := fresh "q" in let r := fresh "qs" in
  destruct cs as [|a [|b [|c r]]]; simpl in H; try discriminate H;
  try (destruct r; [|discriminate H]).

Ltac yl cs H :=
  let a := fresh "q" in let b := fresh "q" in let c := fresh "q" in let r := fresh "qs" in
  destruct cs as [|a [|b [|c r]]]; simpl in H; try discriminate H;
  try (destruct r; [|discriminate H]).

Ltac ychildren cs H :=
  match type of H with
  | _ = length (ysubs (YConcat _ _)) => idtac
  | _ = length (ysubs (YTuple _)) => idtac
  | _ = length (ysubs (YEinsum _ _)) => idtac
  | _ = length (ysubs (YExt _ _ _)) => idtac
  | _ = length (ysubs (YTake _ ?l)) =>
      let t := fresh "q" in let r := fresh "qs" in
      destruct cs as [|t r]; [discriminate H|]; injection H as H;
      let l' := fresh "l'" in let E := fresh "E" in let S1 := fresh "S1" in let S2 := fresh "S2" in
      destruct (fill_split0 l r H) as (l' & E & S1 & S2)
  | _ = length (ysubs (YSlice _ ?l ?m)) =>
      let t := fresh "q" in let r := fresh "qs" in
      destruct cs as [|t r]; [discriminate H|]; injection H as H; rewrite app_length in H;
      let c1 := fresh "cl" in let c2 := fresh "cr" in let H1 := fresh "HL" in let H2 := fresh "HR" in
      destruct (split_app r _ _ H) as (c1 & c2 & -> & H1 & H2);
      let l' := fresh "l'" in let E := fresh "E" in let S1 := fresh "S1" in let S2 := fresh "S2" in
      let m' := fresh "m'" in let E' := fresh "E'" in let S1' := fresh "S1'" in let S2' := fresh "S2'" in
      destruct (fill_split l c1 c2 H1) as (l' & E & S1 & S2);
      destruct (fill_split0 m c2 H2) as (m' & E' & S1' & S2')
  | _ = length (ysubs (YPad _ ?l ?m)) =>
      let t := fresh "q" in let r := fresh "qs" in
      destruct cs as [|t r]; [discriminate H|]; injection H as H; rewrite app_length in H;
      let c1 := fresh "cl" in let c2 := fresh "cr" in let H1 := fresh "HL" in let H2 := fresh "HR" in
      destruct (split_app r _ _ H) as (c1 & c2 & -> & H1 & H2);
      let l' := fresh "l'" in let E := fresh "E" in let S1 := fresh "S1" in let S2 := fresh "S2" in
      let m' := fresh "m'" in let E' := fresh "E'" in let S1' := fresh "S1'" in let S2' := fresh "S2'" in
      destruct (fill_split l c1 c2 H1) as (l' & E & S1 & S2);
      destruct (fill_split0 m c2 H2) as (m' & E' & S1' & S2')
  | _ => yl cs H
  end.

Ltac rb := apply ref_bind; [|intros].

Ltac rr := first [apply ref_refl | rb; [apply ref_refl|rr]].

Global Instance PhiOnce : TermSem phi val den_once.
Proof.
  constructor.
  - intros E t s H. destruct t; simpl in *; try discriminate. injection H as ->. reflexivity.
  - intros E t x b body H. destruct t; simpl in *; try discriminate. injection H as -> -> ->. reflexivity.
  - intros t cs E1 E2 Hs Hl H.
    assert (H0 : forall k c c', nth_error (subs t) k = Some c -> nth_error cs k = Some c' ->
                 nth_error (scopes t) k = Some [] -> ref (den_once E1 c) (den_once E2 c')).
    { intros k c c' Hc Hc' Hsc. apply (H k c c' [] [] Hc Hc' Hsc eq_refl). }
    destruct t; simpl in Hs; try discriminate; simpl in Hl.
    + simpl. apply ref_refl.
    + list_cases cs Hl. simpl. apply ref_bind.
      * apply (H0 0); reflexivity.
      * intros v. apply (H 1 t2 q0 [SV x] [(SV x, v)]); reflexivity.
    + destruct cs as [|c cs]; simpl in Hl; [lia|]. simpl. apply ref_bind.
      * apply ref_mapM2; [lia|]. intros k a b Ha Hb. apply (H0 (S k)); simpl; auto.
        rewrite nth_error_map, Ha. reflexivity.
      * intros vs. apply ref_bind; [apply ref_refl|]. intros zs.
        apply ref_bind; [apply ref_refl|]. intros _. apply (H0 0); reflexivity.
    + list_cases cs Hl. simpl. apply ref_bind; [apply (H0 0); reflexivity|]. intros; apply ref_refl.
    + list_cases cs Hl. simpl. apply ref_bind; [apply (H0 0); reflexivity|]. intros. apply ref_bind; [apply ref_refl|]. intros _. 
      apply ref_bind; [apply (H0 1); reflexivity|]. intros; apply ref_refl.
    + list_cases cs Hl. simpl. apply ref_bind; [apply (H0 0); reflexivity|]. intros.
      apply ref_bind; [apply (H0 1); reflexivity|]. intros; apply ref_refl.
    + list_cases cs Hl. simpl. apply ref_bind; [apply (H0 0); reflexivity|]. intros; apply ref_refl.
    + list_cases cs Hl. simpl. apply ref_bind; [apply (H0 0); reflexivity|]. intros; apply ref_refl.
    + list_cases cs Hl. simpl. apply ref_bind; [apply (H0 0); reflexivity|]. intros vz.
      apply ref_bind; [apply ref_refl|]. intros z.
      apply ref_bind; [apply ref_refl|]. intros _.
      apply ref_bind; [apply (H 1 t2 q0 [SX i] [(SX i, vint 0)]); reflexivity|]. intros v0.
      apply ref_bind; [apply ref_refl|]. intros _.
      apply ref_bind; [|intros; apply ref_refl].
      apply ref_mapM. intros k _. apply (H 1 t2 q0 [SX i] [(SX i, vnat k)]); reflexivity.
    + list_cases cs Hl. simpl. apply ref_bind; [apply (H0 0); reflexivity|]. intros vz.
      apply ref_bind; [apply ref_refl|]. intros z.
      apply ref_bind; [apply ref_refl|]. intros _.
      apply ref_bind; [apply (H0 1); reflexivity|]. intros v0.
      apply ref_iter. intros k v.
      apply (H 2 t3 q1 [SV acc; SV c] [(SV acc, v); (SV c, vnat k)]); reflexivity.
    + rewrite app_length in Hl. simpl in Hl.
      destruct (reduce_split cs (length vecs) t2) as (a & m & z & -> & Hm & H1 & H2); [lia|].
      simpl in *. rewrite H1, H2. apply ref_bind.
      * apply ref_mapM2; [lia|]. intros k u w Hu Hw. apply (H0 (S k)); simpl.
        -- rewrite nth_error_app1 by (apply nth_error_Some; congruence). auto.
        -- rewrite nth_error_app1 by (apply nth_error_Some; congruence). auto.
        -- rewrite nth_error_app1.
           ++ rewrite nth_error_map, Hu. reflexivity.
           ++ rewrite map_length. apply nth_error_Some; congruence.
      * intros vs. apply ref_bind; [apply ref_refl|]. intros _. apply ref_bind; [apply ref_refl|]. intros ns.
        destruct ns as [|n ns]; [apply ref_refl|].
        apply ref_bind; [apply ref_refl|]. intros _. apply ref_bind; [apply ref_refl|]. intros _.
        apply ref_bind; [apply (H0 0); reflexivity|]. intros v0.
        apply ref_iter. intros k v. apply ref_bind; [apply ref_refl|]. intros es.
        destruct es as [|e0 es]; [apply ref_refl|].
        apply (H (S (length vecs)) t2 z [SV x; SV y] [(SV x, v); (SV y, fold_left VPair es e0)]); simpl.
        -- rewrite nth_error_app2, Nat.sub_diag by lia. reflexivity.
        -- rewrite nth_error_app2 by lia. rewrite Hm, Nat.sub_diag. reflexivity.
        -- rewrite nth_error_app2 by (rewrite map_length; lia).
           rewrite map_length, Nat.sub_diag. reflexivity.
        -- reflexivity.
    + list_cases cs Hl. simpl. apply ref_bind; [apply (H0 0); reflexivity|]. intros; apply ref_refl.
    + list_cases cs Hl. simpl. apply ref_bind; [apply (H0 0); reflexivity|]. intros.
      apply ref_bind; [apply (H0 1); reflexivity|]. intros; apply ref_refl.
    + list_cases cs Hl. simpl. apply ref_bind; [apply (H0 0); reflexivity|]. intros.
      apply ref_bind; [apply (H0 1); reflexivity|]. intros.
      apply ref_bind; [apply (H0 2); reflexivity|]. intros; apply ref_refl.
    + list_cases cs Hl. simpl. apply ref_bind; [apply (H0 0); reflexivity|]. intros. apply ref_bind; [apply ref_refl|]. intros _. 
      apply ref_bind; [apply (H0 1); reflexivity|]. intros; apply ref_refl.
    + simpl. apply ref_bind; [|intros; apply ref_refl].
      apply ref_mapM2; [lia|]. intros k a b Ha Hb. apply (H0 k); simpl; auto.
      rewrite nth_error_map, Ha. reflexivity.
Qed.


Global Instance YOnce : TermSem yarr yval yeval_once.
Proof.
  constructor.
  - intros E t s H. destruct t; simpl in *; try discriminate. injection H as <-. reflexivity.
  - intros E t x b body H. destruct t; simpl in *; try discriminate. injection H as -> -> ->. reflexivity.
  - intros t cs E1 E2 Hs Hl H. simpl in Hs, Hl.
    assert (H0 : forall k c c', nth_error (ysubs t) k = Some c -> nth_error cs k = Some c' ->
                 nth_error (yscopes t) k = Some [] -> ref (yeval_once E1 c) (yeval_once E2 c')).
    { intros k c c' Hc Hc' Hsc. apply (H k c c' [] [] Hc Hc' Hsc eq_refl). }
    assert (H1 : yscopes t = map (fun _ => []) (ysubs t) ->
                 forall k c c', nth_error (ysubs t) k = Some c -> nth_error cs k = Some c' ->
                 ref (yeval_once E1 c) (yeval_once E2 c')).
    { intros Hsc k c c' Hc Hc'. apply (H0 k); auto. rewrite Hsc, nth_error_map, Hc. reflexivity. }
    assert (HM : yscopes t = map (fun _ => []) (ysubs t) ->
                 ref (mapM (yeval_once E1) (ysubs t)) (mapM (yeval_once E2) cs)).
    { intros Hsc. apply ref_mapM2; [symmetry; exact Hl|]. intros k x y Hx Hy. apply (H1 Hsc k); auto. }
    destruct t; simpl in Hs; try discriminate;
      try (specialize (H1 eq_refl)); try (specialize (HM eq_refl)); cbn [ysubs] in *.
    + simpl. apply ref_refl.
    + ychildren cs Hl. simpl. rb; [apply (H0 0); reflexivity|].
      apply (H 1 t2 q0 [SV x] [(SV x, a)]); reflexivity.
    + ychildren cs Hl. simpl. rb; [apply (H1 0); reflexivity|]. rr.
    + ychildren cs Hl. simpl. rb; [apply (H1 0); reflexivity|]. rr.
    + simpl. rb; [exact HM|]. rr.
    + ychildren cs Hl. simpl. rb; [apply (H1 0); reflexivity|]. rr.
    + ychildren cs Hl. simpl. rb; [apply (H1 0); reflexivity|]. rr.
    + ychildren cs Hl. simpl. rb; [apply (H1 0); reflexivity|]. rr.
    + ychildren cs Hl. simpl. rb; [apply (H1 0); reflexivity|]. rb; [apply (H1 1); reflexivity|]. rr.
    + destruct cs as [|q qs]; [discriminate Hl|]. injection Hl as Hl.
      destruct (fill_split0 items qs Hl) as (l' & E & S1 & S2).
      simpl. rewrite E. simpl. rb; [apply (H1 0); reflexivity|].
      rb; [|rr]. apply ref_omapM; auto. rewrite S1. intros k u w Hu Hw.
      rb; [|rr]. apply (H1 (S k)); auto.
    + destruct cs as [|q qs]; [discriminate Hl|]. injection Hl as Hl. rewrite app_length in Hl.
      destruct (split_app qs _ _ Hl) as (c1 & c2 & -> & L1 & L2).
      destruct (fill_split starts c1 c2 L1) as (l' & E & S1 & S2).
      destruct (fill_split0 stops c2 L2) as (m' & E' & S1' & S2').
      simpl. rewrite E. simpl. rewrite E'. simpl. rb; [apply (H1 0); reflexivity|].
      rb; [|rb; [|rr]].
      * apply ref_omapM; auto. rewrite S1. intros k u w Hu Hw.
        rb; [|rr]. apply (H1 (S k)); simpl; rewrite nth_error_app1; auto; apply nth_error_Some; congruence.
      * apply ref_omapM; auto. rewrite S1'. intros k u w Hu Hw.
        rb; [|rr]. apply (H1 (S (length c1 + k))); simpl; rewrite nth_error_app2 by lia.
        -- rewrite L1. replace (length (somes starts) + k - length (somes starts)) with k by lia. auto.
        -- replace (length c1 + k - length c1) with k by lia. auto.
    + destruct cs as [|q qs]; [discriminate Hl|]. injection Hl as Hl. rewrite app_length in Hl.
      destruct (split_app qs _ _ Hl) as (c1 & c2 & -> & L1 & L2).
      destruct (fill_split lefts c1 c2 L1) as (l' & E & S1 & S2).
      destruct (fill_split0 rights c2 L2) as (m' & E' & S1' & S2').
      simpl. rewrite E. simpl. rewrite E'. simpl. rb; [apply (H1 0); reflexivity|].
      rb; [|rb; [|rr]].
      * apply ref_omapM; auto. rewrite S1. intros k u w Hu Hw.
        rb; [|rr]. apply (H1 (S k)); simpl; rewrite nth_error_app1; auto; apply nth_error_Some; congruence.
      * apply ref_omapM; auto. rewrite S1'. intros k u w Hu Hw.
        rb; [|rr]. apply (H1 (S (length c1 + k))); simpl; rewrite nth_error_app2 by lia.
        -- rewrite L1. replace (length (somes lefts) + k - length (somes lefts)) with k by lia. auto.
        -- replace (length c1 + k - length c1) with k by lia. auto.
    + ychildren cs Hl. simpl. rb; [apply (H1 1); reflexivity|]. rb; [apply (H1 0); reflexivity|]. rr.
    + ychildren cs Hl. simpl. rb; [apply (H1 0); reflexivity|]. rr.
    + ychildren cs Hl. simpl. rb; [apply (H1 0); reflexivity|]. rr.
    + ychildren cs Hl. simpl. rb; [apply (H1 0); reflexivity|]. rr.
    + ychildren cs Hl. simpl. rb; [apply (H1 0); reflexivity|]. rb; [apply (H1 1); reflexivity|]. rr.
    + ychildren cs Hl. simpl. rb; [apply (H1 0); reflexivity|]. rb; [apply (H1 1); reflexivity|].
      rb; [apply (H1 2); reflexivity|]. rr.
    + ychildren cs Hl. simpl. rb; [apply (H0 1); reflexivity|]. rb; [apply (H0 0); reflexivity|].
      rb; [apply ref_refl|]. rb; [apply ref_refl|]. rb; [apply ref_refl|]. apply ref_iter. intros k v.
      apply (H 2 t3 q1 [SV acc; SV c] [(SV acc, v); (SV c, YA (ascalar (SI (Z.of_nat k))))]); reflexivity.
    + ychildren cs Hl. simpl. rb; [apply (H0 0); reflexivity|]. rb; [apply (H0 2); reflexivity|].
      rb; [apply ref_refl|]. rb; [apply ref_refl|]. apply ref_reduce. intros u w.
      apply (H 1 t2 q0 [SV x; SV y] [(SV x, u); (SV y, w)]); reflexivity.
    + simpl. rb; [exact HM|]. rr.
    + ychildren cs Hl. simpl. rb; [apply (H1 0); reflexivity|]. rr.
    + simpl. rb; [exact HM|]. rr.
    + simpl. rb; [exact HM|]. rr.
Qed.



Ltac binds H := repeat (let x := fresh "a" in let Hx := fresh "HB" in apply bind_ok in H as (x & Hx & H)).

Lemma mapM_visit {A B} (f : A -> res B) l ys k x : mapM f l = Ok ys -> nth_error l k = Some x -> exists y, f x = Ok y.
Proof.
  revert l ys. induction k as [|k IH]; intros [|a l] ys H Hk; try discriminate; simpl in H; binds H.
  - injection Hk as ->. eauto.
  - eapply IH; eauto.
Qed.
Lemma scope_nil {A} (l : list A) k sc : nth_error (map (fun _ => []) l) k = Some sc -> sc = ([] : list sym).
Proof. rewrite nth_error_map. destruct (nth_error l k); simpl; congruence. Qed.

Lemma den_once_all : visits_all (sem := den_once).
Proof.
  intros E t v k c sc Hv Hk Hsc.
  assert (P : sc = [] -> (exists w, den_once E c = Ok w) -> exists l w, map fst l = sc /\ den_once (upds E l) c = Ok w).
  { intros -> (w & Hw). exists [], w. auto. }
  destruct t; cbn [subs PhiOps subterms scopes phi_scopes] in Hk, Hsc; cbn [den_once] in Hv;
    try (destruct k as [|[|[|[|k]]]]; cbn in Hk, Hsc; try discriminate; injection Hk as <-; injection Hsc as <-;
         binds Hv; try (apply P; eauto; fail)).
  - exists [(SV x, a)], v. auto.
  - binds Hv. destruct k as [|k]; cbn in Hk, Hsc.
    + injection Hk as <-. injection Hsc as <-. apply P; eauto.
    + apply P; [eapply scope_nil; eauto|]. eapply mapM_visit; eauto.
  - exists [(SX i, vint 0)], a2. auto.
  - destruct (Z.to_nat a0) as [|n] eqn:Q; [apply guard_ok, Z.leb_le in HB1; lia|]. simpl in Hv. binds Hv.
    exists [(SV acc, a2); (SV c0, vnat 0)], a3. auto.
  - binds Hv. destruct a1 as [|n ns]; [discriminate|]. binds Hv. apply guard_ok, Nat.leb_le in HB3.
    destruct k as [|k]; cbn in Hk, Hsc.
    + injection Hk as <-. injection Hsc as <-. apply P; eauto.
    + destruct (Nat.lt_ge_cases k (length vecs)) as [Lt|Ge].
      * rewrite nth_error_app1 in Hk by auto. rewrite nth_error_app1 in Hsc by (rewrite map_length; auto).
        apply P; [eapply scope_nil; eauto|]. eapply mapM_visit; eauto.
      * rewrite nth_error_app2 in Hk by auto. rewrite nth_error_app2, map_length in Hsc by (rewrite map_length; auto).
        destruct (k - length vecs) as [|j]; [|destruct j; discriminate]. injection Hk as <-. injection Hsc as <-.
        destruct n as [|n]; [lia|]. cbn [iter_res] in Hv. apply bind_ok in Hv as (w & Hw & _).
        apply bind_ok in Hw as (es & _ & Hw). destruct es as [|e0 es]; [discriminate|].
        exists [(SV x, a3); (SV y, fold_left VPair es e0)], w. auto.
  - binds Hv. apply P; [eapply scope_nil; eauto|]. eapply mapM_visit; eauto.
Qed.


Lemma tree_visit get1 ax fuel : forall n vals acc out, 1 <= n -> n < fuel -> tree_loop get1 ax fuel n vals acc = Ok out ->
  exists p q w, get1 p q = Ok w.
Proof.
  induction fuel as [|fuel IH]; intros n vals acc out Hn Hf H; [lia|]. cbn [tree_loop] in H.
  destruct (1 <? n) eqn:Q.
  - apply bind_ok in H as (ac & _ & H). apply bind_ok in H as (l & _ & H). apply bind_ok in H as (l' & _ & H).
    apply bind_ok in H as (vs & Hv & _). eauto.
  - apply Nat.ltb_ge in Q. replace n with 1 in H by lia. cbn in H. apply bind_ok in H as (l & _ & H). eauto.
Qed.

Lemma reduce_visit run ax acc vals out n : rows_of ax vals = Ok n -> 1 <= n -> reduce_call run ax acc vals = Ok out ->
  exists a b w, run a b = Ok w.
Proof.
  intros HR Hn H. unfold reduce_call in H. apply bind_ok in H as (vs & HV & H). apply bind_ok in H as (ac & HA & H).
  apply bind_ok in H as (ns & HN & H). destruct ns as [|m ns]; [discriminate|].
  assert (m = n).
  { destruct vs as [|u vs]; [discriminate|]. simpl in HN. apply bind_ok in HN as (m' & HM & HN). apply bind_ok in HN as (ns' & _ & HN).
    injection HN as <- <-. destruct vals as [a|[|a l]]; simpl in HV, HR; try discriminate.
    - injection HV as <- <-. congruence.
    - injection HV as <- <-. congruence. }
  subst m. apply bind_ok in H as (u & _ & H). apply bind_ok in H as (ac' & _ & H). apply bind_ok in H as (l & HT & _).
  destruct (tree_visit _ ax (S n) n vs ac' l Hn (Nat.lt_succ_diag_r n) HT) as (p & q & w & Hw).
  apply bind_ok in Hw as (a & _ & Hw). apply bind_ok in Hw as (b & _ & Hw). apply bind_ok in Hw as (v & Hv & _). eauto.
Qed.

Lemma somes_visit {A B} (f : A -> res B) l ys k x : mapM (omapM f) l = Ok ys -> nth_error (somes l) k = Some x -> exists y, f x = Ok y.
Proof.
  revert k ys. induction l as [|o l IH]; intros k ys H Hk; [destruct k; discriminate|]. simpl in H. binds H.
  destruct o as [x0|]; simpl in *.
  - destruct k as [|k]; [|eapply IH; eauto]. injection Hk as ->. binds HB. eauto.
  - eapply IH; eauto.
Qed.

Lemma yeval_once_all : visits_all (sem := yeval_once).
Proof.
  intros E t v k c sc Hv Hk Hsc.
  assert (P : sc = [] -> (exists w, yeval_once E c = Ok w) -> exists l w, map fst l = sc /\ yeval_once (upds E l) c = Ok w).
  { intros -> (w & Hw). exists [], w. auto. }
  assert (Q : yscopes t = map (fun _ => []) (ysubs t) -> (exists w, yeval_once E c = Ok w) -> exists l w, map fst l = sc /\ yeval_once (upds E l) c = Ok w).
  { intros HS. apply P. cbn in Hsc. rewrite HS in Hsc. eapply scope_nil; eauto. }
  assert (S : forall {C} (g : yval -> res C) l ys j, mapM (omapM (fun y => let* w := yeval_once E y in g w)) l = Ok ys ->
    nth_error (somes l) j = Some c -> exists w, yeval_once E c = Ok w).
  { intros C g l ys j H Hj. destruct (somes_visit _ _ _ _ _ H Hj) as (y & Hy). apply bind_ok in Hy as (w & Hw & _). eauto. }
  destruct t; cbn [subs YOpsT ysubs] in Hk; cbn [yeval_once] in Hv;
    try (apply Q; [reflexivity|]; apply bind_ok in Hv as (vs & HV & _); eapply mapM_visit; eauto; fail);
    try (apply Q; [reflexivity|]; destruct k as [|[|[|[|k]]]]; cbn in Hk; try discriminate; injection Hk as <-; binds Hv; eauto; fail).
  - destruct k as [|[|[|k]]]; cbn in Hk, Hsc; try discriminate; injection Hk as <-; injection Hsc as <-; binds Hv; [apply P; eauto|].
    exists [(SV x, a)], v. auto.
  - apply Q; [reflexivity|]. binds Hv. destruct k as [|k]; cbn in Hk; [injection Hk as <-; eauto|]. eapply S; eauto.
  - apply Q; [reflexivity|]. binds Hv. destruct k as [|k]; cbn in Hk; [injection Hk as <-; eauto|].
    destruct (Nat.lt_ge_cases k (length (somes starts))) as [Lt|Ge]; [rewrite nth_error_app1 in Hk by auto; exact (S _ (fun w => let* a := ya w in as_int a) _ _ _ HB0 Hk)|rewrite nth_error_app2 in Hk by auto; exact (S _ (fun w => let* a := ya w in as_int a) _ _ _ HB1 Hk)].
  - apply Q; [reflexivity|]. binds Hv. destruct k as [|k]; cbn in Hk; [injection Hk as <-; eauto|].
    destruct (Nat.lt_ge_cases k (length (somes lefts))) as [Lt|Ge]; [rewrite nth_error_app1 in Hk by auto; exact (S _ (fun w => let* a := ya w in as_int a) _ _ _ HB0 Hk)|rewrite nth_error_app2 in Hk by auto; exact (S _ (fun w => let* a := ya w in as_int a) _ _ _ HB1 Hk)].
  - apply bind_ok in Hv as (v0 & H0 & Hv). apply bind_ok in Hv as (w & Hw & Hv). apply bind_ok in Hv as (b & _ & Hv).
    apply bind_ok in Hv as (z & _ & Hv). apply bind_ok in Hv as (u & Hz & Hv). apply guard_ok, Z.leb_le in Hz.
    destruct k as [|[|[|[|k]]]]; cbn in Hk, Hsc; try discriminate; injection Hk as <-; injection Hsc as <-; [apply P; eauto|apply P; eauto|].
    destruct (Z.to_nat z) as [|n] eqn:QZ; [lia|]. cbn [iter_res] in Hv. apply bind_ok in Hv as (v1 & H1 & _).
    eexists [(SV acc, v0); (SV c0, _)], v1. split; [reflexivity|exact H1].
  - apply bind_ok in Hv as (v0 & H0 & Hv). apply bind_ok in Hv as (w & Hw & Hv). apply bind_ok in Hv as (n & Hn & Hv).
    apply bind_ok in Hv as (u & Hz & Hv). apply guard_ok, Nat.leb_le in Hz.
    destruct k as [|[|[|[|k]]]]; cbn in Hk, Hsc; try discriminate; injection Hk as <-; injection Hsc as <-; [apply P; eauto| |apply P; eauto].
    destruct (reduce_visit _ _ _ _ _ _ Hn Hz Hv) as (a & b & r & Hr). exists [(SV x, a); (SV y, b)], r. auto.
Qed.

End Once.

Section Compare.
Context {FO : FloatOps} {EX : Externs} {PO : PadOps}.
Ltac rb := apply ref_bind; [|intros].

(** * Against the ordinary evaluators *)
Lemma ref_mapM_F {A B} (P : A -> Prop) (f g : A -> res B) l :
  Forall P l -> (forall a, P a -> ref (f a) (g a)) -> ref (mapM f l) (mapM g l).
Proof. clear. intros F H. apply ref_mapM. intros a Ha. apply H. rewrite Forall_forall in F. auto. Qed.

Lemma ref_drop {A B} (m : res A) (k : A -> res B) r : (forall a, ref (k a) r) -> ref (bind m k) r.
Proof. clear. intros H v Hv. apply bind_ok in Hv as (a & _ & Hv). exact (H a v Hv). Qed.

Lemma once_den st e : forall E, ref (den_once st E e) (den E e).
Proof.
  Local Ltac dr := apply ref_drop; intros _.
  induction e using phi_ind'; intros E; cbn [den_once den];
    try solve [apply ref_refl | repeat first [apply ref_refl | apply IHe | apply IHe1 | apply IHe2 | apply IHe3 | rb]].
  - rb; [|rb; [apply ref_refl|]; rb; [apply ref_refl|apply IHe]].
    apply (ref_mapM_F _ _ _ _ H). auto.
  - rb; [apply IHe|]. dr. apply ref_refl.
  - rb; [apply IHe1|]. dr. rb; [apply IHe2|]. apply ref_refl.
  - rb; [apply IHe1|]. rb; [apply ref_refl|]. dr. rb; [apply IHe2|]. dr. rb; [|apply ref_refl].
    apply ref_mapM. intros. apply IHe2.
  - rb; [apply IHe1|]. rb; [apply ref_refl|]. dr.
    rb; [apply IHe2|]. apply ref_iter. intros. apply IHe3.
  - rb; [apply (ref_mapM_F _ _ _ _ H); auto|]. dr. rb; [apply ref_refl|]. destruct a0 as [|n ns]; [apply ref_refl|].
    rb; [apply ref_refl|]. dr. rb; [apply IHe1|]. apply ref_iter. intros k0 b. apply ref_bind; [apply ref_refl|].
    intros [|e0 es]; [apply ref_refl|apply IHe2].
  - rb; [apply IHe1|]. dr. rb; [apply IHe2|]. dr. apply ref_refl.
  - rb; [apply (ref_mapM_F _ _ _ _ H); auto|]. apply ref_refl.
Qed.

Lemma plain_false v : plain false v = Ok tt.
Proof. destruct v; reflexivity. Qed.
Lemma plains_false l : exists us, mapM (plain false) l = Ok us.
Proof. induction l as [|v l [us IH]]; cbn [mapM]; [eauto|]. rewrite plain_false, IH. cbn. eauto. Qed.

(** Every fold and reduction that is reached runs at least once. *)
Fixpoint all_run (E : env) (e : phi) : Prop :=
  let all (l : list phi) := fold_right and True (map (all_run E) l) in
  match e with
  | PConst _ | PStore _ _ => True
  | PLet x b body => all_run E b /\ forall v, den E b = Ok v -> all_run (upd E (SV x) v) body
  | PAssertEq t ops => all_run E t /\ all ops
  | PDim t _ => all_run E t
  | PGet t i => all_run E t /\ all_run E i
  | PCons a b => all_run E a /\ all_run E b
  | PFirst t | PSecond t => all_run E t
  | PVec i s b => all_run E s /\ all_run (upd E (SX i) (vint 0)) b /\
      forall v z k, den E s = Ok v -> val_int v = Ok z -> k < Z.to_nat z -> all_run (upd E (SX i) (vnat k)) b
  | PFold c s acc init b =>
      all_run E s /\ all_run E init /\
      forall v z, den E s = Ok v -> val_int v = Ok z ->
        (1 <= z)%Z /\
        forall k w, k < Z.to_nat z -> acc_val E c acc init b k = Ok w -> all_run (fold_env E c acc k w) b
  | PReduce init x y xy vecs =>
      all_run E init /\ all vecs /\
      forall vs n, mapM (den E) vecs = Ok vs -> Forall (fun v => vdim v 0 = Ok n) vs ->
        1 <= n /\
        forall k w r, k < n -> red_val E init x y xy vs k = Ok w -> row_of vs k = Ok r -> all_run (red_env E x y w r) xy
  | PUn _ a => all_run E a
  | PBin _ a b => all_run E a /\ all_run E b
  | PWhere c a b => all_run E c /\ all_run E a /\ all_run E b
  | PConcat a b => all_run E a /\ all_run E b
  | PExt _ _ ops => all ops
  end.

Lemma iter_run {A} (f g : nat -> A -> res A) k n a v :
  (forall j w u, k <= j < k + n -> iter_res f k (j - k) a = Ok w -> f j w = Ok u -> g j w = Ok u) ->
  iter_res f k n a = Ok v -> iter_res g k n a = Ok v.
Proof.
  clear. revert v. induction n as [|n IH]; intros v H Hv; [exact Hv|].
  rewrite iter_res_snoc in *. apply bind_ok in Hv as (w & Hw & Hv).
  rewrite (IH w) by (auto; intros; apply H; auto; lia). cbn [bind].
  apply (H (k + n) w v); auto; [lia|]. replace (k + n - k) with n by lia. auto.
Qed.

Lemma all_run_once e : forall E v, all_run E e -> den E e = Ok v -> den_once false E e = Ok v.
Proof.
  assert (M : forall E ops vs, Forall (fun e => forall E v, all_run E e -> den E e = Ok v -> den_once false E e = Ok v) ops ->
    fold_right and True (map (all_run E) ops) -> mapM (den E) ops = Ok vs -> mapM (den_once false E) ops = Ok vs).
  { intros E ops vs F. revert vs. induction F as [|o ops Ho F IH]; simpl; intros vs R H; auto. destruct R as [R1 R2].
    apply bind_ok in H as (w & Hw & H). apply bind_ok in H as (ws & Hws & H).
    rewrite (Ho E w R1 Hw). cbn [bind]. rewrite (IH ws R2 Hws). exact H. }
  induction e using phi_ind'; intros E v R Hv; cbn [all_run den den_once] in *; auto.
  - destruct R as [R1 R2]. apply bind_ok in Hv as (w & Hw & Hv). rewrite (IHe1 E w R1 Hw). cbn [bind]. rewrite ?plain_false. cbn [bind]. auto.
  - destruct R as [R1 R2]. apply bind_ok in Hv as (w & Hw & Hv). rewrite (M E ops w H R2 Hw). cbn [bind].
    apply bind_ok in Hv as (zs & Hz & Hv). rewrite Hz. cbn [bind]. apply bind_ok in Hv as (u & Hu & Hv). rewrite Hu. cbn [bind]. auto.
  - apply bind_ok in Hv as (w & Hw & Hv). rewrite (IHe E w R Hw). cbn [bind]. rewrite ?plain_false. exact Hv.
  - destruct R as [R1 R2]. apply bind_ok in Hv as (w & Hw & Hv). rewrite (IHe1 E w R1 Hw). cbn [bind]. rewrite ?plain_false. cbn [bind].
    apply bind_ok in Hv as (u & Hu & Hv). rewrite (IHe2 E u R2 Hu). cbn [bind]. rewrite ?plain_false. exact Hv.
  - destruct R as [R1 R2]. apply bind_ok in Hv as (w & Hw & Hv). rewrite (IHe1 E w R1 Hw). cbn [bind]. rewrite ?plain_false. cbn [bind].
    apply bind_ok in Hv as (u & Hu & Hv). rewrite (IHe2 E u R2 Hu). cbn [bind]. rewrite ?plain_false. exact Hv.
  - apply bind_ok in Hv as (w & Hw & Hv). rewrite (IHe E w R Hw). cbn [bind]. rewrite ?plain_false. exact Hv.
  - apply bind_ok in Hv as (w & Hw & Hv). rewrite (IHe E w R Hw). cbn [bind]. rewrite ?plain_false. exact Hv.
  - destruct R as (R1 & R2 & R3). apply bind_ok in Hv as (w & Hw & Hv). rewrite (IHe1 E w R1 Hw). cbn [bind]. rewrite ?plain_false. cbn [bind].
    apply bind_ok in Hv as (z & Hz & Hv). rewrite Hz. cbn [bind].
    apply bind_ok in Hv as (v0 & H0 & Hv). cbn [negb orb]. cbn [guard bind]. rewrite (IHe2 _ v0 R2 H0). cbn [bind]. rewrite plain_false. cbn [bind].
    apply bind_ok in Hv as (rows & Hr & Hv).
    assert (Q : mapM (fun k => den_once false (upd E (SX i) (vnat k)) e2) (seq 0 (Z.to_nat z)) = Ok rows); [|rewrite Q; exact Hv].
    clear Hv. apply mapM_Forall2. apply mapM_Forall2 in Hr.
    assert (Hin : forall k, In k (seq 0 (Z.to_nat z)) -> k < Z.to_nat z) by (intros k Hk; apply in_seq in Hk; lia).
    revert Hin Hr. generalize (seq 0 (Z.to_nat z)). intros ls Hin Hr. revert Hin. induction Hr as [|k r ks rs Hk F IHr]; intros Hin; constructor.
    + apply IHe2; auto. apply (R3 w z k); auto. apply Hin. left. auto.
    + apply IHr. intros j Hj. apply Hin. right. auto.
  - destruct R as (R1 & R2 & R3). apply bind_ok in Hv as (w & Hw & Hv). rewrite (IHe1 E w R1 Hw). cbn [bind]. rewrite ?plain_false. cbn [bind].
    apply bind_ok in Hv as (z & Hz & Hv). rewrite Hz. cbn [bind]. destruct (R3 w z Hw Hz) as [G R4].
    assert (Q : guard (1 <=? z)%Z EValue = Ok tt) by (unfold guard; apply Z.leb_le in G; rewrite G; auto). rewrite Q. cbn [bind].
    apply bind_ok in Hv as (v0 & H0 & Hv). rewrite (IHe2 E v0 R2 H0). cbn [bind].
    refine (iter_run _ _ _ _ _ _ _ Hv). clear Hv. intros j a u Hj Ha Hu. apply IHe3; auto. apply (R4 j a); [lia|].
    unfold acc_val. rewrite H0. cbn [bind]. rewrite Nat.sub_0_r in Ha. exact Ha.
  - destruct R as (R1 & R2 & R3). apply bind_ok in Hv as (vs & Hvs & Hv). rewrite (M E vecs vs H R2 Hvs). cbn [bind]. destruct (plains_false vs) as [us Us]. rewrite Us. cbn [bind].
    apply bind_ok in Hv as (ns & Hns & Hv). rewrite Hns. cbn [bind]. destruct ns as [|n ns]; [discriminate|].
    apply bind_ok in Hv as ([] & Hg & Hv). rewrite Hg. cbn [bind]. apply guard_ok in Hg.
    assert (F : Forall (fun v => vdim v 0 = Ok n) vs).
    { apply mapM_Forall2 in Hns. rewrite forallb_forall in Hg.
      assert (Q : forall m, In m (n :: ns) -> m = n) by (intros m [Hm|Hm]; [auto|]; apply Hg in Hm; apply Nat.eqb_eq in Hm; auto).
      clear - Hns Q. revert Q Hns. generalize (n :: ns). intros l Q Hl. revert Q. induction Hl as [|a m vs l Ha F IH]; intros Q; constructor.
      - rewrite <- (Q m) by (left; auto). auto.
      - apply IH. intros k Hk. apply Q. right. auto. }
    destruct (R3 vs n Hvs F) as [G R4].
    assert (Q : guard (1 <=? n) EValue = Ok tt) by (unfold guard; apply Nat.leb_le in G; rewrite G; auto). rewrite Q. cbn [bind].
    apply bind_ok in Hv as (v0 & H0 & Hv). rewrite (IHe1 E v0 R1 H0). cbn [bind].
    refine (iter_run _ _ _ _ _ _ _ Hv). clear Hv. intros j a u Hj Ha Hu.
    apply bind_ok in Hu as (es & He & Hu). rewrite He. cbn [bind]. destruct es as [|e0 es]; [discriminate|].
    apply IHe2; auto. apply (R4 j a (fold_left VPair es e0)); [lia| |].
    + unfold red_val. rewrite H0. cbn [bind]. rewrite Nat.sub_0_r in Ha. rewrite <- Ha. apply iter_res_ext. intros i b _.
      unfold row_of. destruct (mapM (fun u0 => vget u0 (Z.of_nat i)) vs) as [[|]|]; reflexivity.
    + unfold row_of. rewrite He. reflexivity.
  - apply bind_ok in Hv as (w & Hw & Hv). rewrite (IHe E w R Hw). cbn [bind]. rewrite ?plain_false. exact Hv.
  - destruct R as [R1 R2]. apply bind_ok in Hv as (w & Hw & Hv). rewrite (IHe1 E w R1 Hw). cbn [bind]. rewrite ?plain_false. cbn [bind].
    apply bind_ok in Hv as (u & Hu & Hv). rewrite (IHe2 E u R2 Hu). cbn [bind]. rewrite ?plain_false. exact Hv.
  - destruct R as (R1 & R2 & R3). apply bind_ok in Hv as (w & Hw & Hv). rewrite (IHe1 E w R1 Hw). cbn [bind]. rewrite ?plain_false. cbn [bind].
    apply bind_ok in Hv as (u & Hu & Hv). rewrite (IHe2 E u R2 Hu). cbn [bind].
    apply bind_ok in Hv as (x & Hx & Hv). rewrite (IHe3 E x R3 Hx). exact Hv.
  - destruct R as [R1 R2]. apply bind_ok in Hv as (w & Hw & Hv). rewrite (IHe1 E w R1 Hw). cbn [bind]. rewrite ?plain_false. cbn [bind].
    apply bind_ok in Hv as (u & Hu & Hv). rewrite (IHe2 E u R2 Hu). cbn [bind]. rewrite ?plain_false. exact Hv.
  - apply bind_ok in Hv as (w & Hw & Hv). rewrite (M E ops w H R Hw). exact Hv.
Qed.

Lemma once_yeval e : forall R, ref (yeval_once R e) (yeval R e).
Proof.
  assert (M : forall R ops, Forall (fun e => forall R, ref (yeval_once R e) (yeval R e)) ops -> ref (mapM (yeval_once R) ops) (mapM (yeval R) ops)).
  { intros R ops F. apply (ref_mapM_F _ _ _ _ F). auto. }
  assert (N : forall {B} (g : yval -> res B) R items, Forall (oall (fun e => forall R, ref (yeval_once R e) (yeval R e))) items ->
     ref (mapM (omapM (fun y => let* w := yeval_once R y in g w)) items) (mapM (omapM (fun y => let* w := yeval R y in g w)) items)).
  { intros B g R items F. apply (ref_mapM_F _ _ _ _ F). intros [y|] Hy; cbn [omapM]; [|apply ref_refl].
    rb; [|apply ref_refl]. rb; [apply Hy|apply ref_refl]. }
  induction e using yarr_ind'; intros R; cbn [yeval_once yeval];
    try solve [apply ref_refl | repeat first [apply ref_refl | apply IHe | apply IHe1 | apply IHe2 | apply IHe3 | apply M; assumption | apply N; assumption | rb]].
  - rb; [apply IHe2|]. rb; [apply IHe1|]. rb; [apply ref_refl|]. rb; [apply ref_refl|].
    intros v Hv. apply bind_ok in Hv as (? & _ & Hv). revert v Hv. apply ref_iter. intros. apply IHe3.
  - rb; [apply IHe1|]. rb; [apply IHe3|]. intros v Hv. apply bind_ok in Hv as (? & _ & Hv). apply bind_ok in Hv as (? & _ & Hv).
    revert v Hv. apply ref_reduce. intros. apply IHe2.
Qed.
End Compare.
