(** Phi terms as an instance of the generic term interface, with the reference
    semantics. *)
From Verif Require Import Base Scalar Tensor Types Phi Den Term.

Section PhiTerm.
Context {FO : FloatOps} {EX : Externs}.

(** [map] with the new subterms given by position (see [subterms]). *)
Definition phi_rebuild (e : phi) (cs : list phi) : phi :=
  match e, cs with
  | PLet x _ _, [b; body] => PLet x b body
  | PAssertEq _ _, t :: ops => PAssertEq t ops
  | PDim _ ax, [t] => PDim t ax
  | PGet _ _, [t; i] => PGet t i
  | PCons _ _, [a; b] => PCons a b
  | PFirst _, [t] => PFirst t
  | PSecond _, [t] => PSecond t
  | PVec i _ _, [s; b] => PVec i s b
  | PFold c _ acc _ _, [s; init; b] => PFold c s acc init b
  | PReduce _ x y xy _, init :: rest => PReduce init x y (last rest xy) (removelast rest)
  | PUn o _, [a] => PUn o a
  | PBin o _ _, [a; b] => PBin o a b
  | PWhere _ _ _, [c; a; b] => PWhere c a b
  | PConcat _ _, [a; b] => PConcat a b
  | PExt t f _, ops => PExt t f ops
  | e, _ => e
  end.

(** [map] is [rebuild] with mapped subterms. *)
Lemma pmap_rebuild f e : pmap f e = phi_rebuild e (map f (subterms e)).
Proof.
  destruct e; simpl; auto.
  rewrite map_app. simpl. rewrite last_last, removelast_last. reflexivity.
Qed.

(** Which captured symbols are visible in which subterm: only the body of a
    binder sees them. *)
Definition phi_scopes (e : phi) : list (list sym) :=
  match e with
  | PConst _ | PStore _ _ => []
  | PLet x _ _ => [[]; [SV x]]
  | PAssertEq _ ops => [] :: map (fun _ => []) ops
  | PDim _ _ => [[]]
  | PGet _ _ => [[]; []]
  | PCons _ _ => [[]; []]
  | PFirst _ | PSecond _ => [[]]
  | PVec i _ _ => [[]; [SX i]]
  | PFold c _ acc _ _ => [[]; []; [SV acc; SV c]]
  | PReduce _ x y _ vecs => [] :: map (fun _ => []) vecs ++ [[SV x; SV y]]
  | PUn _ _ => [[]]
  | PBin _ _ _ => [[]; []]
  | PWhere _ _ _ => [[]; []; []]
  | PConcat _ _ => [[]; []]
  | PExt _ _ ops => map (fun _ => []) ops
  end.

Global Instance PhiOps : TermOps phi := {|
  subs := subterms;
  rebuild := phi_rebuild;
  capt := captured;
  scopes := phi_scopes;
  (* phi.py:133-134 *)
  symof := fun e => match e with PStore s _ => Some s | _ => None end;
  (* phi.py:179-180 *)
  unlet := fun e => match e with PLet x b body => Some (x, b, body) | _ => None end;
  (* phi.py:67-69 *)
  wrap_let := PLet;
  (* phi.py:71-72; a term that exists has a type *)
  wrap_var := fun x e =>
    PStore (SV x) (match typ e with Ok t => t | Err _ => TScalar KInt end);
  (* phi.py:105-107, 136-138 *)
  is_atom := fun e =>
    match e with
    | PStore _ _ => true
    | PConst a => match ashape a with [] => true | _ => false end
    | _ => false
    end;
  (* phi.py:346-348, 392-394, 440-442 *)
  is_loop := fun e =>
    match e with PVec _ _ _ | PFold _ _ _ _ _ | PReduce _ _ _ _ _ => true | _ => false end;
  teqb := phi_eqb;
  tsize := psize;
  tfree := fsyms
|}.

Lemma In_list_sum_le {A} (f : A -> nat) x l : In x l -> f x <= list_sum (map f l).
Proof. induction l; simpl; intros []; [subst; lia|]. specialize (IHl H). lia. Qed.

Ltac list_cases cs H :=
  let a := fresh "q" in let b := fresh "q" in let c := fresh "q" in let r := fresh "qs" in
  destruct cs as [|a [|b [|c r]]]; simpl in H; try discriminate H;
  try (destruct r; [|discriminate H]).

Lemma reduce_split (cs : list phi) n d :
  length cs = S (S n) ->
  exists a m z, cs = a :: m ++ [z] /\ length m = n /\ last (tl cs) d = z /\ removelast (tl cs) = m.
Proof.
  destruct cs as [|a cs]; simpl; intros H; [lia|].
  destruct (exists_last (l := cs)) as (m & z & ->); [destruct cs; simpl in H; [lia|congruence]|].
  exists a, m, z. rewrite last_last, removelast_last. repeat split; auto.
  rewrite app_length in H. simpl in H. lia.
Qed.

Lemma scope_const {A} (ops : list A) k sc s :
  nth_error (map (fun _ => @nil sym) ops) k = Some sc -> In s sc -> False.
Proof.
  intros H Hs. apply nth_error_In in H. apply in_map_iff in H as (? & <- & _). destruct Hs.
Qed.

Global Instance PhiLaws : TermLaws phi.
Proof.
  constructor.
  - intros t. destruct t; simpl; auto. rewrite last_last, removelast_last. reflexivity.
  - intros t cs H. destruct t; simpl in *; try (list_cases cs H; reflexivity).
    rewrite app_length in H. simpl in H.
    destruct (reduce_split cs (length vecs) t2) as (a & m & z & -> & Hl & H1 & H2); [lia|].
    simpl in *. rewrite H1, H2. reflexivity.
  - intros t cs H. destruct t; simpl in *; try (list_cases cs H; reflexivity).
  - intros t cs H. destruct t; simpl in *; try (list_cases cs H; reflexivity).
    + destruct cs; simpl in *; [lia|]. f_equal. injection H as H. revert H. generalize cs. clear.
      induction ops; destruct cs; simpl; intros; try lia; auto. f_equal. auto.
    + rewrite app_length in H. simpl in H.
      destruct (reduce_split cs (length vecs) t2) as (a & m & z & -> & Hl & H1 & H2); [lia|].
      simpl in *. rewrite H2. f_equal. f_equal. clear - Hl. revert m Hl.
      induction vecs; destruct m; simpl; intros; try lia; auto. f_equal; auto.
    + revert cs H. induction ops; destruct cs; simpl; intros; try lia; auto. f_equal; auto.
  - intros t cs H. destruct t; simpl in *; try (list_cases cs H; reflexivity).
  - intros t cs cs' H H'. destruct t; simpl in *;
      try (list_cases cs H; list_cases cs' H'; reflexivity).
    destruct cs as [|a cs]; simpl in *; [lia|]. destruct cs' as [|a' cs']; simpl in *; [lia|].
    f_equal. destruct cs' as [|b' cs']; [rewrite app_length in H'; simpl in H'; lia|].
    clear. revert b'. induction cs'; intros; auto. simpl in *. destruct cs'; auto.
  - intros t. destruct t; simpl; auto; rewrite ?app_length, ?map_length; auto.
  - intros t k k' sc sc' s H H' Hs Hs'. destruct t; simpl in *;
      try (destruct k; discriminate);
      try solve [destruct k as [|[|[|k]]]; simpl in H; try discriminate;
        destruct k' as [|[|[|k']]]; simpl in H'; try discriminate; auto;
        try (injection H as <-; destruct Hs); try (injection H' as <-; destruct Hs');
        try (destruct k; discriminate); try (destruct k'; discriminate)].
    + destruct k; simpl in H; [injection H as <-; destruct Hs|]. exfalso. eapply scope_const; eauto.
    + destruct k; simpl in H; [injection H as <-; destruct Hs|].
      destruct k'; simpl in H'; [injection H' as <-; destruct Hs'|].
      assert (K : forall k sc, nth_error (map (fun _ : phi => @nil sym) vecs ++ [[SV x; SV y]]) k = Some sc ->
                  In s sc -> k = length vecs).
      { clear. intros k sc H Hs. destruct (Nat.lt_ge_cases k (length vecs)).
        - rewrite nth_error_app1 in H by (rewrite map_length; auto). exfalso. eapply scope_const; eauto.
        - assert (k < length (map (fun _ : phi => @nil sym) vecs ++ [[SV x; SV y]]))
            by (apply nth_error_Some; congruence).
          rewrite app_length, map_length in H1. simpl in H1. lia. }
      f_equal. rewrite (K _ _ H Hs), (K _ _ H' Hs'). reflexivity.
    + exfalso. eapply scope_const; eauto.
  - intros t sc s H Hs. destruct t; simpl in *;
      repeat (destruct H as [H|H]; [subst sc; simpl in *; tauto|]); try contradiction.
    + apply in_map_iff in H as (? & <- & _). destruct Hs.
    + apply in_app_or in H as [H|[<-|[]]]; auto. apply in_map_iff in H as (? & <- & _). destruct Hs.
    + apply in_map_iff in H as (? & <- & _). destruct Hs.
  - intros t s H. destruct t; simpl in *; try discriminate. auto.
  - intros t. destruct t; simpl; lia.
  - intros t c H. destruct t; simpl in *; repeat (destruct H as [<-|H]; try lia); try tauto.
    + apply (In_list_sum_le psize) in H. lia.
    + apply in_app_or in H as [H|[<-|[]]]; try lia. apply (In_list_sum_le psize) in H. lia.
    + apply (In_list_sum_le psize) in H. lia.
  - intros a b. apply phi_eqb_eq.
  - intros t x b body H. destruct t; simpl in *; try discriminate. injection H as <- <- <-. auto.
  - reflexivity.
  - intros t cs H. destruct t; simpl in *;
      try (list_cases cs H; split; congruence).
  - reflexivity.
  - intros x y t u H. simpl in H. congruence.
  - intros t H. destruct t; simpl in *; try discriminate; auto.
  - intros t s H. destruct t; simpl in *; try discriminate; auto.
  - intros t s. simpl. rewrite fsyms_eq, sremove_In. rewrite in_app_iff, in_flat_map.
    destruct t; simpl; intuition (try congruence);
      repeat match goal with H : Some _ = Some _ |- _ => injection H as -> end; auto.
Qed.

Lemma ref_mapM {A B} (f g : A -> res B) l :
  (forall x, In x l -> ref (f x) (g x)) -> ref (mapM f l) (mapM g l).
Proof.
  induction l as [|x l IH]; simpl; intros H; [apply ref_refl|].
  apply ref_bind; auto. intros y. apply ref_bind; auto. intros ys. apply ref_refl.
Qed.

Lemma ref_mapM2 {A A' B} (f : A -> res B) (g : A' -> res B) l l' :
  length l = length l' ->
  (forall k x y, nth_error l k = Some x -> nth_error l' k = Some y -> ref (f x) (g y)) ->
  ref (mapM f l) (mapM g l').
Proof.
  revert l'. induction l as [|x l IH]; destruct l' as [|y l']; simpl; intros Hl H; try lia.
  - apply ref_refl.
  - apply ref_bind; [apply (H 0); auto|]. intros b. apply ref_bind; [|intros; apply ref_refl].
    apply IH; [lia|]. intros k. apply (H (S k)).
Qed.

Lemma ref_iter {A} (f g : nat -> A -> res A) k n a :
  (forall j b, ref (f j b) (g j b)) -> ref (iter_res f k n a) (iter_res g k n a).
Proof.
  intros H. revert k a. induction n as [|n IH]; simpl; intros; [apply ref_refl|].
  apply ref_bind; auto.
Qed.

Global Instance PhiSem : TermSem phi val den.
Proof.
  constructor.
  - intros E t s H. destruct t; simpl in *; try discriminate. injection H as ->. reflexivity.
  - intros E t x b body H. destruct t; simpl in *; try discriminate. injection H as -> -> ->. reflexivity.
  - intros t cs E1 E2 Hs Hl H.
    assert (H0 : forall k c c', nth_error (subs t) k = Some c -> nth_error cs k = Some c' ->
                 nth_error (scopes t) k = Some [] -> ref (den E1 c) (den E2 c')).
    { intros k c c' Hc Hc' Hsc. apply (H k c c' [] [] Hc Hc' Hsc eq_refl). }
    destruct t; simpl in Hs; try discriminate; simpl in Hl.
    + simpl. apply ref_refl.
    + list_cases cs Hl. simpl. apply ref_bind.
      * apply (H0 0); reflexivity.
      * intros v. apply (H 1 t2 q0 [SV x] [(SV x, v)]); reflexivity.
    + destruct cs as [|c cs]; simpl in Hl; [lia|]. simpl. apply ref_bind.
      * apply ref_mapM2; [lia|]. intros k a b Ha Hb. apply (H0 (S k)); simpl; auto.
        rewrite nth_error_map, Ha. reflexivity.
      * intros vs. apply ref_bind; [apply ref_refl|]. intros zs.
        apply ref_bind; [apply ref_refl|]. intros _. apply (H0 0); reflexivity.
    + list_cases cs Hl. simpl. apply ref_bind; [apply (H0 0); reflexivity|]. intros; apply ref_refl.
    + list_cases cs Hl. simpl. apply ref_bind; [apply (H0 0); reflexivity|]. intros.
      apply ref_bind; [apply (H0 1); reflexivity|]. intros; apply ref_refl.
    + list_cases cs Hl. simpl. apply ref_bind; [apply (H0 0); reflexivity|]. intros.
      apply ref_bind; [apply (H0 1); reflexivity|]. intros; apply ref_refl.
    + list_cases cs Hl. simpl. apply ref_bind; [apply (H0 0); reflexivity|]. intros; apply ref_refl.
    + list_cases cs Hl. simpl. apply ref_bind; [apply (H0 0); reflexivity|]. intros; apply ref_refl.
    + list_cases cs Hl. simpl. apply ref_bind; [apply (H0 0); reflexivity|]. intros vz.
      apply ref_bind; [apply ref_refl|]. intros z.
      apply ref_bind; [apply (H 1 t2 q0 [SX i] [(SX i, vint 0)]); reflexivity|]. intros v0.
      apply ref_bind; [|intros; apply ref_refl].
      apply ref_mapM. intros k _. apply (H 1 t2 q0 [SX i] [(SX i, vnat k)]); reflexivity.
    + list_cases cs Hl. simpl. apply ref_bind; [apply (H0 0); reflexivity|]. intros vz.
      apply ref_bind; [apply ref_refl|]. intros z.
      apply ref_bind; [apply (H0 1); reflexivity|]. intros v0.
      apply ref_iter. intros k v.
      apply (H 2 t3 q1 [SV acc; SV c] [(SV acc, v); (SV c, vnat k)]); reflexivity.
    + rewrite app_length in Hl. simpl in Hl.
      destruct (reduce_split cs (length vecs) t2) as (a & m & z & -> & Hm & H1 & H2); [lia|].
      simpl in *. rewrite H1, H2. apply ref_bind.
      * apply ref_mapM2; [lia|]. intros k u w Hu Hw. apply (H0 (S k)); simpl.
        -- rewrite nth_error_app1 by (apply nth_error_Some; congruence). auto.
        -- rewrite nth_error_app1 by (apply nth_error_Some; congruence). auto.
        -- rewrite nth_error_app1.
           ++ rewrite nth_error_map, Hu. reflexivity.
           ++ rewrite map_length. apply nth_error_Some; congruence.
      * intros vs. apply ref_bind; [apply ref_refl|]. intros ns.
        destruct ns as [|n ns]; [apply ref_refl|].
        apply ref_bind; [apply ref_refl|]. intros _.
        apply ref_bind; [apply (H0 0); reflexivity|]. intros v0.
        apply ref_iter. intros k v. apply ref_bind; [apply ref_refl|]. intros es.
        destruct es as [|e0 es]; [apply ref_refl|].
        apply (H (S (length vecs)) t2 z [SV x; SV y] [(SV x, v); (SV y, fold_left VPair es e0)]); simpl.
        -- rewrite nth_error_app2, Nat.sub_diag by lia. reflexivity.
        -- rewrite nth_error_app2 by lia. rewrite Hm, Nat.sub_diag. reflexivity.
        -- rewrite nth_error_app2 by (rewrite map_length; lia).
           rewrite map_length, Nat.sub_diag. reflexivity.
        -- reflexivity.
    + list_cases cs Hl. simpl. apply ref_bind; [apply (H0 0); reflexivity|]. intros; apply ref_refl.
    + list_cases cs Hl. simpl. apply ref_bind; [apply (H0 0); reflexivity|]. intros.
      apply ref_bind; [apply (H0 1); reflexivity|]. intros; apply ref_refl.
    + list_cases cs Hl. simpl. apply ref_bind; [apply (H0 0); reflexivity|]. intros.
      apply ref_bind; [apply (H0 1); reflexivity|]. intros.
      apply ref_bind; [apply (H0 2); reflexivity|]. intros; apply ref_refl.
    + list_cases cs Hl. simpl. apply ref_bind; [apply (H0 0); reflexivity|]. intros.
      apply ref_bind; [apply (H0 1); reflexivity|]. intros; apply ref_refl.
    + simpl. apply ref_bind; [|intros; apply ref_refl].
      apply ref_mapM2; [lia|]. intros k a b Ha Hb. apply (H0 k); simpl; auto.
      rewrite nth_error_map, Ha. reflexivity.
Qed.

End PhiTerm.
