(** ein/debug/graph.py:31-59: the graph drawn for a program. *)
From Verif Require Import Base Sym Term.

Section Names.
Context {T : Type} {O : TermOps T} {TL : TermLaws T}.

(** A node is named by its class and a number (39). *)
Definition name : Type := nat * nat.

(** Looking up a term in [vis]. *)
Fixpoint name_of (l : list (T * name)) (t : T) : option name :=
  match l with
  | [] => None
  | (u, n) :: l => if teqb u t then Some n else name_of l t
  end.

Lemma name_of_in l t n : NoDup (map fst l) -> (name_of l t = Some n <-> In (t, n) l).
Proof.
  induction l as [|[u m] l IH]; simpl; intros ND; [split; [discriminate|tauto]|].
  inversion ND as [|? ? NI ND']; subst. destruct (teqb u t) eqn:Q.
  - apply teqb_eq in Q. subst u. split; [intros H; injection H as <-; auto|].
    intros [H|H]; [injection H as <-; auto|]. exfalso. apply NI. apply (in_map fst) in H. exact H.
  - rewrite IH by auto. split; auto. intros [H|H]; auto. injection H as -> ->.
    assert (teqb t t = true) by (apply teqb_eq; auto). congruence.
Qed.
Lemma name_of_none l t : name_of l t = None <-> ~ In t (map fst l).
Proof.
  induction l as [|[u m] l IH]; simpl; [tauto|]. destruct (teqb u t) eqn:Q.
  - apply teqb_eq in Q. subst. split; [discriminate|tauto].
  - rewrite IH. split; [intros H [->|K]; auto|tauto]. assert (teqb t t = true) by (apply teqb_eq; auto). congruence.
Qed.
Lemma same_term l (t : T) u (n : name) : NoDup (map snd l) -> In (t, n) l -> In (u, n) l -> t = u.
Proof.
  induction l as [|[v m] l IH]; simpl; intros ND H K; [tauto|]. inversion ND as [|? ? NI ND']; subst.
  destruct H as [H|H], K as [K|K]; try congruence; auto.
  - injection H as -> ->. exfalso. apply NI. apply (in_map snd) in K. exact K.
  - injection K as -> ->. exfalso. apply NI. apply (in_map snd) in H. exact H.
Qed.
Lemma same_name l (t : T) (n m : name) : NoDup (map fst l) -> In (t, n) l -> In (t, m) l -> n = m.
Proof.
  intros ND H K. apply (name_of_in l t n ND) in H. apply (name_of_in l t m ND) in K. congruence.
Qed.

Lemma NoDup_app_intro1 {X} (l : list X) a : NoDup l -> ~ In a l -> NoDup (l ++ [a]).
Proof. intros N I. apply NoDup_Add with (a := a) (l := l); [|auto]. rewrite <- (app_nil_r l) at 1. apply Add_app. Qed.

End Names.

Section Graph.
Context {T : Type} {O : TermOps T} {TL : TermLaws T} {Lab : Type}.

(** The class of a term ([type(expr).__name__], 38-40), its label (42-51;
    looking up the type may raise) and the iteration order of the set [preds] of
    its subterms (41: [expr.debug], which lists the subterms, e.g.
    phi/phi.py:158-159, codegen/yarr.py:506-507). *)
Variable cls : T -> nat.
Variable label : T -> res Lab.
Variable preds : T -> list T.

(** [vis], [ids] and the drawing [dot] (32-34). *)
Record gstate : Type := mkG { vis : list (T * name); ids : nat -> nat; nodes : list (name * Lab); edges : list (name * name) }.

(** graph.py:36-56 *)
Fixpoint draw (fuel : nat) (t : T) (st : gstate) {struct fuel} : res (name * gstate) :=
  match fuel with
  | 0 => Err EFuel
  | S fuel =>
      match name_of (vis st) t with
      | Some n => Ok (n, st)
      | None =>
          let i := ids st (cls t) in
          let n := (cls t, i) in
          let* l := label t in
          let st := mkG (vis st ++ [(t, n)]) (fun c => if c =? cls t then S i else ids st c) (nodes st ++ [(n, l)]) (edges st) in
          let* st := (fix each ps st := match ps with
            | [] => Ok st
            | p :: ps =>
                let* r := draw fuel p st in
                let (m, st) := r in
                each ps (mkG (vis st) (ids st) (nodes st) (edges st ++ [(m, n)]))
            end) (preds t) st in
          Ok (n, st)
      end
  end.
Definition draw_edges (fuel : nat) (n : name) := (fix each ps st := match ps with
            | [] => Ok st
            | p :: ps =>
                let* r := draw fuel p st in
                let (m, st) := r in
                each ps (mkG (vis st) (ids st) (nodes st) (edges st ++ [(m, n)]))
            end).

(** graph.py:31-59 *)
Definition graph (fuel : nat) (t : T) : res gstate :=
  let* r := draw fuel t (mkG [] (fun _ => 0) [] []) in Ok (snd r).

(** * The graph of subterms *)
Hypothesis PS : forall t c, In c (preds t) <-> In c (subs t).
Hypothesis PN : forall t, NoDup (preds t).

(** [P t]: the subterms of [t] that have been connected to it. *)
Record inv (P : T -> list T) (st : gstate) : Prop := {
  inv_terms : NoDup (map fst (vis st));
  inv_names : NoDup (map snd (vis st));
  inv_ids : forall t n, In (t, n) (vis st) -> fst n = cls t /\ snd n < ids st (fst n);
  inv_nodes : Forall2 (fun v d => fst d = snd v /\ label (fst v) = Ok (snd d)) (vis st) (nodes st);
  inv_edges : forall a b, In (a, b) (edges st) <-> exists c t, In (c, a) (vis st) /\ In (t, b) (vis st) /\ In c (P t);
  inv_once : NoDup (edges st);
  inv_closed : forall t c, In t (map fst (vis st)) -> In c (P t) -> In c (map fst (vis st)) }.

(** What a call for [t] adds: subterms of [t], all of them connected. *)
Definition grown (t : T) (P P' : T -> list T) (st st' : gstate) : Prop :=
  (exists l, vis st' = vis st ++ l /\ (forall u n, In (u, n) l -> sub_of u t /\ P' u = preds u)) /\
  (forall u, In u (map fst (vis st)) -> P' u = P u).

Lemma draw_inv fuel : forall t st P r, inv P st -> (forall u, In u (map fst (vis st)) -> P u = preds u \/ tsize t < tsize u) ->
  draw fuel t st = Ok r ->
  exists P', inv P' (snd r) /\ grown t P P' st (snd r) /\ In (t, fst r) (vis (snd r)) /\ P' t = preds t.
Proof.
  induction fuel as [|fuel IH]; intros t st P r I DN H; [discriminate|]. cbn [draw] in H.
  destruct (name_of (vis st) t) as [n|] eqn:Q.
  { injection H as <-. cbn [fst snd]. apply name_of_in in Q; [|apply I]. exists P. split; [exact I|]. split; [|split; [exact Q|]].
    - split; [exists []; rewrite app_nil_r; split; [reflexivity|simpl; tauto]|auto].
    - destruct (DN t) as [E|E]; [apply (in_map fst) in Q; exact Q|exact E|lia]. }
  apply name_of_none in Q. apply bind_ok in H as (l & Hl & H). cbv zeta in H. fold (draw_edges fuel (cls t, ids st (cls t))) in H.
  apply bind_ok in H as (st' & HE & H). injection H as <-. cbn [fst snd].
  set (n := (cls t, ids st (cls t))) in *. set (st1 := mkG _ _ _ _) in HE.
  (* connecting the subterms one by one *)
  assert (G : forall rest done st2 P2, inv P2 st2 -> preds t = done ++ rest -> P2 t = done -> In (t, n) (vis st2) ->
    (forall u, In u (map fst (vis st2)) -> u = t \/ P2 u = preds u \/ tsize t < tsize u) ->
    draw_edges fuel n rest st2 = Ok st' ->
    exists P', inv P' st' /\ P' t = preds t /\ (exists l, vis st' = vis st2 ++ l /\ (forall u m, In (u, m) l -> sub_of u t /\ P' u = preds u)) /\
      (forall u, In u (map fst (vis st2)) -> u <> t -> P' u = P2 u)).
  { induction rest as [|p rest IHr]; intros done st2 P2 I2 EQ PT TI DN2 HD; cbn [draw_edges] in HD.
    { injection HD as <-. exists P2. rewrite app_nil_r in EQ. split; [exact I2|]. split; [congruence|]. split; [|auto].
      exists []. rewrite app_nil_r. split; [reflexivity|simpl; tauto]. }
    fold (draw_edges fuel n) in HD. apply bind_ok in HD as ([m st3] & Hp & HD).
    assert (PT' : In p (subs t)) by (apply PS; rewrite EQ; apply in_or_app; right; left; reflexivity).
    destruct (IH p st2 P2 (m, st3) I2) with (2 := Hp) as (P3 & I3 & [(l3 & V3 & L3) K3] & Pm & Pp).
    { intros u Hu. apply tsize_sub in PT'. destruct (DN2 u Hu) as [->|[E|E]]; [right; lia|auto|right; lia]. }
    cbn [fst snd] in *.
    set (P4 := fun u => if teqb u t then P3 t ++ [p] else P3 u).
    assert (T3 : In (t, n) (vis st3)) by (rewrite V3; apply in_or_app; auto).
    assert (PT3 : P3 t = done) by (rewrite <- PT; apply K3; apply (in_map fst) in TI; exact TI).
    assert (P4t : P4 t = done ++ [p]). { unfold P4. rewrite (proj2 (teqb_eq t t) eq_refl), PT3. reflexivity. }
    assert (P4n : forall u, u <> t -> P4 u = P3 u). { intros u Hu. unfold P4. destruct (teqb u t) eqn:Q'; [apply teqb_eq in Q'; congruence|reflexivity]. }
    assert (NP : ~ In p done). { pose proof (PN t) as ND. rewrite EQ in ND. apply NoDup_remove_2 in ND. intros K. apply ND. apply in_or_app. auto. }
    assert (I4 : inv P4 (mkG (vis st3) (ids st3) (nodes st3) (edges st3 ++ [(m, n)]))).
    { destruct I3 as [A B C D E F G]. constructor; cbn [vis ids nodes edges]; auto.
      - intros a b. rewrite in_app_iff, E. split.
        + intros [(c & u & Hc & Hu & HP)|[K|[]]].
          * exists c, u. split; auto. split; auto. unfold P4. destruct (teqb u t) eqn:Q'; auto. apply teqb_eq in Q'. subst u. apply in_or_app. auto.
          * injection K as <- <-. exists p, t. split; auto. split; auto. rewrite P4t. apply in_or_app. right. left. reflexivity.
        + intros (c & u & Hc & Hu & HP). unfold P4 in HP. destruct (teqb u t) eqn:Q'.
          * apply teqb_eq in Q'. subst u. apply in_app_or in HP as [HP|[<-|[]]]; [left; eauto|]. right. left.
            rewrite (same_name _ _ _ _ A Hc Pm), (same_name _ _ _ _ A Hu T3). reflexivity.
          * left. eauto.
      - apply NoDup_app_intro1; auto. rewrite E. intros (c & u & Hc & Hu & HP).
        rewrite (same_term _ _ _ _ B Hu T3), PT3 in HP. rewrite (same_term _ _ _ _ B Hc Pm) in HP. auto.
      - intros u c Hu Hc. destruct (teqb u t) eqn:Q'.
        + apply teqb_eq in Q'. subst u. rewrite P4t, <- PT3 in Hc. apply in_app_or in Hc as [Hc|[<-|[]]]; [eauto|]. apply (in_map fst) in Pm. exact Pm.
        + unfold P4 in Hc. rewrite Q' in Hc. eauto. }
    destruct (IHr (done ++ [p]) _ P4 I4) with (5 := HD) as (P' & I' & PT'' & (l' & V' & L') & K').
    - rewrite <- app_assoc. exact EQ.
    - exact P4t.
    - exact T3.
    - cbn [vis]. intros u Hu. rewrite V3, map_app, in_app_iff in Hu.
      destruct (teqb u t) eqn:Q'; [left; apply teqb_eq; auto|]. right. assert (u <> t) by (intros ->; rewrite (proj2 (teqb_eq t t) eq_refl) in Q'; discriminate).
      rewrite P4n by auto. destruct Hu as [Hu|Hu].
      + rewrite K3 by auto. destruct (DN2 u Hu) as [?|[?|?]]; auto; congruence.
      + apply in_map_iff in Hu as ((u' & k) & <- & Hu). left. apply (L3 _ _ Hu).
    - exists P'. split; [exact I'|]. split; [exact PT''|]. cbn [vis] in *. split.
      + exists (l3 ++ l'). split; [rewrite V', V3, app_assoc; reflexivity|]. intros u k Hu. apply in_app_or in Hu as [Hu|Hu]; [|eapply L'; eauto].
        destruct (L3 _ _ Hu) as [Su Du]. split; [eapply sub_step; eauto|].
        assert (u <> t). { intros ->. apply sub_of_size in Su as [->|Su]; apply tsize_sub in PT'; lia. }
        rewrite K', P4n; auto. rewrite V3, map_app, in_app_iff. right. apply (in_map fst) in Hu. exact Hu.
      + intros u Hu NE. rewrite K', P4n; auto. rewrite V3, map_app, in_app_iff. auto. }
  destruct (G (preds t) [] st1 (fun u => if teqb u t then [] else P u)) with (6 := HE) as (P' & I' & PT & (l' & V' & L') & K').
  - destruct I as [A B C D E F G']. constructor; cbn [st1 vis ids nodes edges].
    + rewrite map_app. apply NoDup_app_intro1; auto.
    + rewrite map_app. apply NoDup_app_intro1; auto. cbn [snd]. intros K. apply in_map_iff in K as ((u & k) & Ek & K). cbn [snd] in Ek. subst k.
      apply C in K as [_ K]. unfold n in K. cbn [fst snd] in K. lia.
    + intros u k Hk. apply in_app_or in Hk as [Hk|[Hk|[]]].
      * destruct (C _ _ Hk) as [C1 C2]. split; auto. destruct (fst k =? cls t) eqn:Q'; [|exact C2]. apply Nat.eqb_eq in Q'. rewrite Q' in C2. lia.
      * injection Hk as <- <-. unfold n. cbn [fst snd]. rewrite Nat.eqb_refl. split; auto.
    + apply Forall2_app; auto.
    + intros a b. rewrite E. split; intros (c & u & Hc & Hu & HP).
      * exists c, u. split; [apply in_or_app; auto|]. split; [apply in_or_app; auto|]. destruct (teqb u t) eqn:Q'; auto.
        apply teqb_eq in Q'. subst u. exfalso. apply Q. apply (in_map fst) in Hu. exact Hu.
      * apply in_app_or in Hu as [Hu|[Hu|[]]].
        2:{ injection Hu as <- <-. rewrite (proj2 (teqb_eq t t) eq_refl) in HP. destruct HP. }
        destruct (teqb u t) eqn:Q'; [destruct HP|]. apply in_app_or in Hc as [Hc|[Hc|[]]]; [eauto|].
        injection Hc as <- <-. exfalso. assert (Hu' := Hu). apply (in_map fst) in Hu'. cbn [fst] in Hu'.
        apply Q. eapply G'; eauto.
    + auto.
    + intros u c Hu Hc. rewrite map_app, in_app_iff in *. destruct (teqb u t) eqn:Q'; [destruct Hc|]. left.
      destruct Hu as [Hu|[<-|[]]]; [eapply G'; eauto|]. cbn [fst] in Q'. rewrite (proj2 (teqb_eq t t) eq_refl) in Q'. discriminate.
  - reflexivity.
  - rewrite (proj2 (teqb_eq t t) eq_refl). reflexivity.
  - cbn [st1 vis]. apply in_or_app. right. left. reflexivity.
  - cbn [st1 vis]. intros u Hu. rewrite map_app, in_app_iff in Hu. destruct (teqb u t) eqn:Q'; [left; apply teqb_eq; auto|]. right.
    destruct Hu as [Hu|[<-|[]]]; [apply DN; auto|]. cbn [fst] in Q'. rewrite (proj2 (teqb_eq t t) eq_refl) in Q'. discriminate.
  - exists P'. split; [exact I'|]. cbn [st1 vis] in V', K'. split; [split|split; [|exact PT]].
    + exists ((t, n) :: l'). split; [rewrite V', <- app_assoc; reflexivity|]. intros u k [Hu|Hu]; [|eapply L'; eauto].
      injection Hu as <- <-. split; [apply sub_refl|exact PT].
    + intros u Hu. assert (NE : u <> t) by (intros ->; auto). rewrite K'; auto.
      * destruct (teqb u t) eqn:Q'; [apply teqb_eq in Q'; congruence|reflexivity].
      * rewrite map_app, in_app_iff. auto.
    + rewrite V'. apply in_or_app. left. apply in_or_app. right. left. reflexivity.
Qed.

Lemma draw_total fuel : forall t st, tsize t <= fuel -> (forall u, sub_of u t -> exists l, label u = Ok l) ->
  exists r, draw fuel t st = Ok r.
Proof.
  induction fuel as [|fuel IH]; intros t st Hf HL; [pose proof (tsize_pos t); lia|]. cbn [draw].
  destruct (name_of (vis st) t) as [n|]; [eauto|]. destruct (HL t (sub_refl t)) as (l & ->). cbn [bind]. cbv zeta.
  set (n := (cls t, ids st (cls t))). set (st1 := mkG (vis st ++ _) _ _ _).
  assert (G : forall ps st1, (forall p, In p ps -> In p (subs t)) -> exists st2, draw_edges fuel n ps st1 = Ok st2).
  { induction ps as [|p ps IHp]; intros st2 Hp; cbn [draw_edges]; [eauto|]. fold (draw_edges fuel n).
    assert (Sp : In p (subs t)) by (apply Hp; left; reflexivity).
    destruct (IH p st2) as ([m st3] & ->); [apply tsize_sub in Sp; lia|intros u Hu; apply HL; eapply sub_step; eauto|]. cbn [bind].
    apply IHp. intros q Hq. apply Hp. right. exact Hq. }
  destruct (G (preds t) st1) as (st2 & E); [intros p; apply PS|]. exists (n, st2). change (bind (draw_edges fuel n (preds t) st1) (fun st => Ok (n, st)) = Ok (n, st2)). rewrite E. reflexivity.
Qed.

Lemma graph_spec fuel t st : graph fuel t = Ok st ->
  NoDup (map fst (vis st)) /\ NoDup (map snd (vis st)) /\
  (forall u, In u (map fst (vis st)) <-> sub_of u t) /\ (forall u n, In (u, n) (vis st) -> fst n = cls u) /\
  Forall2 (fun v d => fst d = snd v /\ label (fst v) = Ok (snd d)) (vis st) (nodes st) /\ NoDup (edges st) /\
  forall a b, In (a, b) (edges st) <-> exists c u, In (c, a) (vis st) /\ In (u, b) (vis st) /\ In c (subs u).
Proof.
  unfold graph. intros H. apply bind_ok in H as (r & H & E). injection E as <-.
  destruct (draw_inv fuel t (mkG [] (fun _ => 0) [] []) (fun _ => []) r) with (3 := H) as (P & I & [(l & V & L) _] & M & PT).
  - constructor; cbn [vis edges nodes map In]; try constructor; try tauto. intros (c & u & K & _). exact K.
  - simpl. tauto.
  - cbn [vis app] in V. destruct I as [A B C D E F G].
    assert (PP : forall u n, In (u, n) (vis (snd r)) -> P u = preds u) by (intros u n Hu; rewrite V in Hu; apply (L _ _ Hu)).
    split; [exact A|]. split; [exact B|]. split; [|split; [intros u n Hu; apply (C _ _ Hu)|split; [exact D|split; [exact F|]]]].
    + intros u. split.
      * rewrite V. intros Hu. apply in_map_iff in Hu as ((u' & n) & <- & Hu). apply (L _ _ Hu).
      * intros Hu. assert (Ht : In t (map fst (vis (snd r)))) by (apply (in_map fst) in M; exact M). clear - Hu Ht G PP PS.
        induction Hu as [t|s c t Hc Hu IH]; [exact Ht|]. apply IH. apply (G t); auto. apply in_map_iff in Ht as ((t' & n) & Q & Ht). cbn [fst] in Q. subst t'.
        rewrite (PP _ _ Ht). apply PS. exact Hc.
    + intros a b. rewrite E. split; intros (c & u & Hc & Hu & HP); exists c, u; split; auto; split; auto.
      * rewrite (PP _ _ Hu) in HP. apply PS. exact HP.
      * rewrite (PP _ _ Hu). apply PS. exact HP.
Qed.
End Graph.
