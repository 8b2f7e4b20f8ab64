(** Property C53: the graph drawn for a program. *)
From Verif Require Import Base Scalar Tensor Types Sym Phi Den Term PhiTerm SpecPhi Lining Graph Sample.

Section Props.
Context {T : Type} {O : TermOps T} {TL : TermLaws T} {Lab : Type}.
Variables (cls : T -> nat) (label : T -> res Lab) (preds : T -> list T).

(** The predecessors are the subterms, without repetition and in any order. *)
Definition lists_subterms : Prop := forall t, NoDup (preds t) /\ forall c, In c (preds t) <-> In c (subs t).

(** One box for each different subterm, with its label, under a name no other
    box has; one arrow for each subterm of a subterm. *)
Theorem C53_graph (fuel : nat) (t : T) st : lists_subterms -> graph cls label preds fuel t = Ok st ->
  exists box : T -> name,
    (forall u v, sub_of u t -> sub_of v t -> box u = box v -> u = v) /\
    (forall u, sub_of u t -> fst (box u) = cls u) /\
    NoDup (map fst (nodes st)) /\
    (forall n l, In (n, l) (nodes st) <-> exists u, sub_of u t /\ n = box u /\ label u = Ok l) /\
    NoDup (edges st) /\
    (forall a b, In (a, b) (edges st) <-> exists c u, sub_of u t /\ In c (subs u) /\ a = box c /\ b = box u).
Proof.
  intros LS H. destruct (graph_spec cls label preds (fun t c => proj2 (LS t) c) (fun t => proj1 (LS t)) fuel t st H) as (A & B & C & D & E & F & G).
  assert (IN : forall u, sub_of u t -> exists n, name_of (vis st) u = Some n).
  { intros u Hu. apply C in Hu. apply in_map_iff in Hu as ((u' & n) & <- & Hu). exists n. apply name_of_in; auto. }
  exists (fun u => match name_of (vis st) u with Some n => n | None => (0, 0) end).
  assert (BX : forall u n, In (u, n) (vis st) -> name_of (vis st) u = Some n) by (intros u n Hu; apply name_of_in; auto).
  assert (XB : forall u n, name_of (vis st) u = Some n -> In (u, n) (vis st)) by (intros u n Hu; apply name_of_in in Hu; auto).
  assert (SB : forall u n, In (u, n) (vis st) -> sub_of u t) by (intros u n Hu; apply C; apply (in_map fst) in Hu; exact Hu).
  split; [|split; [|split; [|split; [|split; [exact F|]]]]].
  - intros u v Hu Hv Q. destruct (IN u Hu) as (n & Hn), (IN v Hv) as (m & Hm). rewrite Hn, Hm in Q. subst m.
    apply XB in Hn, Hm. exact (same_term (vis st) u v n B Hn Hm).
  - intros u Hu. destruct (IN u Hu) as (n & Hn). rewrite Hn. apply XB in Hn. apply (D _ _ Hn).
  - replace (map fst (nodes st)) with (map snd (vis st)); [exact B|]. clear - E. induction E as [|v d l l' [Q _] _ IH]; simpl; congruence.
  - intros n l. split.
    + intros Hn. apply in_split in Hn as (l1 & l2 & Q). rewrite Q in E. apply Forall2_app_inv_r in E as (v1 & v2 & _ & E2 & EV).
      inversion E2 as [|v d vs ds [Q1 Q2] E3 X1 X2]; subst. cbn [fst snd] in *. exists (fst v).
      assert (Hv : In (fst v, n) (vis st)) by (rewrite EV, Q1; apply in_or_app; right; left; destruct v; reflexivity).
      split; [eapply SB; eauto|]. split; [rewrite (BX _ _ Hv); reflexivity|exact Q2].
    + intros (u & Hu & -> & Hl). destruct (IN u Hu) as (n & Hn). rewrite Hn. apply XB in Hn. clear - E Hn Hl.
      induction E as [|v d l0 l' [Q1 Q2] _ IH]; [destruct Hn|]. destruct Hn as [->|Hn]; [|right; auto]. cbn [fst snd] in *. left. destruct d as [m k]. cbn [fst snd] in *. congruence.
  - intros a b. rewrite G. split.
    + intros (c & u & Hc & Hu & K). exists c, u. split; [eapply SB; eauto|]. split; [exact K|]. rewrite (BX _ _ Hc), (BX _ _ Hu). auto.
    + intros (c & u & Hu & K & -> & ->). destruct (IN u Hu) as (m & Hm).
      destruct (IN c) as (n & Hn). { eapply sub_of_trans; [|exact Hu]. eapply sub_step; [exact K|apply sub_refl]. }
      rewrite Hn, Hm. exists c, u. auto.
Qed.

(** It is drawn exactly when every subterm has a label: looking up the type of an
    ill-typed subterm raises. *)
Theorem C53_graph_drawn (fuel : nat) (t : T) : lists_subterms -> tsize t <= fuel ->
  ((exists st, graph cls label preds fuel t = Ok st) <-> forall u, sub_of u t -> exists l, label u = Ok l).
Proof.
  intros LS Hf. split.
  - intros (st & H). destruct (graph_spec cls label preds (fun t c => proj2 (LS t) c) (fun t => proj1 (LS t)) fuel t st H) as (A & _ & C & _ & E & _).
    intros u Hu. apply C in Hu. clear - E Hu. induction E as [|v d l l' [_ Q] _ IH]; [destruct Hu|]. destruct Hu as [<-|Hu]; eauto.
  - intros HL. destruct (draw_total cls label preds (fun t c => proj2 (LS t) c) fuel t (mkG [] (fun _ => 0) [] []) Hf HL) as (r & H).
    exists (snd r). unfold graph. rewrite H. reflexivity.
Qed.
End Props.

(** (x + 1) * (x + 1): four boxes, three arrows; fst of it is ill-typed *)
Section Samples.
#[local] Existing Instance zfloat.
Definition psquare : phi :=
  let s := PBin BAdd (PStore (SV 0) (TScalar KInt)) (PConst (ascalar (SI 1))) in PBin BMul s s.
Definition pclass (e : phi) : nat := match e with PConst _ => 0 | PStore _ _ => 1 | PBin BAdd _ _ => 2 | _ => 3 end.
Lemma phi_dec (a b : phi) : {a = b} + {a <> b}.
Proof. destruct (phi_eqb a b) eqn:Q; [left; apply phi_eqb_eq; exact Q|right; intros ->]. rewrite (proj2 (phi_eqb_eq b b) eq_refl) in Q. discriminate. Defined.
Definition popen (e : phi) : list phi := nodup phi_dec (subs e).
Example C53_example :
  lists_subterms popen /\
  (exists st, graph pclass typ popen 20 psquare = Ok st /\
    map fst (nodes st) = [(3, 0); (2, 0); (1, 0); (0, 0)] /\
    edges st = [((1, 0), (2, 0)); ((0, 0), (2, 0)); ((2, 0), (3, 0))]) /\
  tsize psquare <= 20 /\
  graph pclass typ popen 20 (PFirst psquare) = Err EType.
Proof.
  split; [intros t; split; [apply NoDup_nodup|intros c; apply nodup_In]|].
  split; [eexists; split; [vm_compute; reflexivity|split; reflexivity]|]. split; [apply Nat.leb_le; reflexivity|vm_compute; reflexivity].
Qed.
End Samples.

Print Assumptions C53_graph.
Print Assumptions C53_graph_drawn.
