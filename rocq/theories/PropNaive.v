(** Properties C01, C02, C04, C30, C36: the reference interpreter
    (ein/backend/naive.py) and the reference semantics. *)
From Verif Require Import Base Scalar Tensor Types Sym Phi Den Term PhiTerm DenFree SpecPhi Typing DenWf Naive.

Section Props.
Context {FO : FloatOps} {EX : Externs}.

(** * C01 *)

(** Reference semantics, arrays of records included. *)
Theorem C01_element_law (E : env) i size body vz z v :
  consts_wf body -> env_wf E ->
  den E size = Ok vz -> val_int vz = Ok z -> (1 <= z)%Z ->
  den E (PVec i size body) = Ok v ->
  vdim v 0 = Ok (Z.to_nat z) /\
  forall k, k < Z.to_nat z ->
    exists w, den (upd E (SX i) (vint (Z.of_nat k))) body = Ok w /\ vget v (Z.of_nat k) = Ok w.
Proof.
  intros C W Hs Hz Hp H. cbn [den] in H. rewrite Hs in H. cbn [bind] in H. rewrite Hz in H. cbn [bind] in H.
  apply bind_ok in H as (v0 & H0 & H). apply bind_ok in H as (vs & HM & H).
  assert (L : length vs = Z.to_nat z) by (apply mapM_length in HM; rewrite seq_length in HM; auto).
  assert (Wvs : Forall val_wf vs).
  { eapply mapM_all; [exact HM|]. intros k w _ Hw. cbv beta in Hw. eapply den_wf; [| |exact Hw]; auto.
    apply env_wf_upd; auto. apply vscalar_wf. }
  split; [rewrite (vdim_vstack _ _ _ H), L; auto|]. intros k Hk.
  exists (nth k vs v0). split.
  - pose proof (mapM_nth _ _ _ k 0 v0 HM) as N. rewrite seq_length in N. specialize (N Hk).
    rewrite seq_nth in N by auto. exact N.
  - eapply vget_vstack; eauto. lia.
Qed.

(** The comprehension is defined exactly when all elements are, and have the
    same structure, kinds and shapes. *)
Theorem C01_defined (E : env) i size body vz z :
  den E size = Ok vz -> val_int vz = Ok z -> (1 <= z)%Z ->
  ((exists v, den E (PVec i size body) = Ok v) <->
   exists w0, forall k, k < Z.to_nat z ->
     exists w, den (upd E (SX i) (vint (Z.of_nat k))) body = Ok w /\ vlike w0 w = true).
Proof.
  intros Hs Hz Hp. cbn [den]. rewrite Hs. cbn [bind]. rewrite Hz. cbn [bind]. split.
  - intros [v H]. apply bind_ok in H as (v0 & H0 & H). apply bind_ok in H as (vs & HM & H).
    exists v0. intros k Hk. exists (nth k vs v0).
    assert (L : length vs = Z.to_nat z) by (apply mapM_length in HM; rewrite seq_length in HM; auto).
    split.
    + pose proof (mapM_nth _ _ _ k 0 v0 HM) as N. rewrite seq_length in N. specialize (N Hk).
      rewrite seq_nth in N by auto. exact N.
    + assert (F : Forall (fun w => vlike v0 w = true) vs).
      { clear - H. revert vs v H. induction v0 as [a|t1 IH1 t2 IH2]; simpl; intros vs v H; inv_bind.
        - apply mapM_as_arr in Hb. subst vs. rewrite Forall_map. apply Forall_forall. apply forallb_forall. auto.
        - apply mapM_as_pair in Hb. subst vs. rewrite Forall_map. simpl.
          apply IH1 in Hb0. apply IH2 in Hb1. rewrite Forall_map in Hb0, Hb1.
          rewrite Forall_forall in *. intros p Hp. rewrite (Hb0 p Hp), (Hb1 p Hp). auto. }
      rewrite Forall_forall in F. apply F. apply nth_In. lia.
  - intros [w0 H].
    assert (G : forall n s, (forall k, s <= k < s + n -> exists w, den (upd E (SX i) (vint (Z.of_nat k))) body = Ok w /\ vlike w0 w = true) ->
      exists vs, mapM (fun k => den (upd E (SX i) (vnat k)) body) (seq s n) = Ok vs /\ Forall (fun w => vlike w0 w = true) vs).
    { induction n as [|n IH]; intros s Hw; [exists []; simpl; auto|].
      destruct (Hw s) as (w & W1 & W2); [lia|]. destruct (IH (S s)) as (vs & V1 & V2).
      { intros k Hk. apply Hw. lia. }
      exists (w :: vs). simpl. unfold vnat at 1. rewrite W1. simpl. rewrite V1. auto. }
    destruct (G (Z.to_nat z) 0) as (vs & V1 & V2); [intros; apply H; lia|].
    destruct (H 0) as (v0 & Hv0 & L0); [lia|]. change (Z.of_nat 0) with 0%Z in Hv0.
    rewrite Hv0. cbn [bind]. rewrite V1. cbn [bind].
    assert (LL : forall a b c, vlike a b = true -> vlike a c = true -> vlike b c = true).
    { clear. induction a as [a|a1 IH1 a2 IH2]; intros [b|b1 b2] [c|c1 c2]; simpl; try discriminate.
      - rewrite !arr_like_true. intros [? ?] [? ?]. split; congruence.
      - rewrite !andb_true_iff. intros [? ?] [? ?]. eauto. }
    apply vstack_defined. revert V2. apply Forall_impl. eauto.
Qed.

(** The interpreter itself: the elements are the results of running the body. *)
Theorem C01_interpreter (X : list sym) (E E1 E2 : env) i size body vz z v :
  fresh_binders X (PVec i size body) -> env_dom X E ->
  nin false size E = Ok (vz, E1) -> val_int vz = Ok z -> (1 <= z)%Z ->
  nin false (PVec i size body) E = Ok (v, E2) ->
  exists a, v = VArr a /\ hd_error (ashape a) = Some (Z.to_nat z) /\
  forall k, k < Z.to_nat z -> exists b E3,
    nin false body (upd E (SX i) (vint (Z.of_nat k))) = Ok (VArr b, E3) /\
    akind a = akind b /\ ashape a = Z.to_nat z :: ashape b /\
    forall idx, inb (ashape b) idx -> get a (k :: idx) = get b idx.
Proof.
  intros FB D Hs Hz Hp H. cbn [nin] in H. unfold sbind at 1 2 in H. rewrite Hs in H. cbn [bind fst snd] in H.
  unfold lift at 1 in H. rewrite Hz in H. cbn [bind fst snd] in H.
  destruct FB as (N & F1 & F2).
  destruct (nin_restores false size X E F1 D vz E1 Hs) as [E1E _].
  unfold sbind at 1 in H. apply bind_ok in H as ([l E3] & HM & H). cbn [fst snd] in H.
  assert (FM : Forall2 (fun k b => exists E', nin false body (upd E (SX i) (vnat k)) = Ok (VArr b, E')) (seq 0 (Z.to_nat z)) l).
  { clear - HM E1E F2 D. revert l E1 E3 E1E HM. generalize 0. induction (Z.to_nat z) as [|n IH]; intros s l E1 E3 E1E HM.
    - simpl in HM. injection HM as <- <-. constructor.
    - simpl in HM. unfold sbind at 1 in HM. apply bind_ok in HM as ([b E4] & H1 & H2). cbn [fst snd] in H2.
      unfold on_copy in H1. apply bind_ok in H1 as ([b' E5] & H1 & H1'). injection H1' as -> ->.
      unfold sbind in H1. apply bind_ok in H1 as ([w E6] & H1 & H1'). cbn [fst snd] in H1'.
      unfold lift in H1'. apply bind_ok in H1' as (b' & Hb & H1'). injection H1' as <- <-.
      apply as_arr_ok in Hb. subst w.
      unfold sbind at 1 in H2. apply bind_ok in H2 as ([l' E7] & H2 & H3). injection H3 as <- <-.
      simpl. constructor.
      + eapply nin_same in H1 as (E8 & H1 & _); [|apply (upd_same_env _ E); exact E1E]. exists E8. exact H1.
      + eapply IH; eauto. }
  unfold lift in H. apply bind_ok in H as (v' & H & H'). injection H' as -> ->.
  apply bind_ok in H as (a & Ha & H). injection H as <-. exists a. split; auto.
  assert (Z.to_nat z = length l) as L by (apply Forall2_len in FM; rewrite seq_length in FM; auto).
  unfold np_array in Ha. destruct l as [|b0 l]; [simpl in L; lia|]. inv_bind.
  assert (FL : Forall (fun b => akind b0 = akind b /\ ashape b0 = ashape b) (b0 :: l)).
  { apply Forall_forall. intros b Hb0. apply arr_like_true. rewrite forallb_forall in Hb. auto. }
  rewrite L. split; [reflexivity|]. intros k Hk.
  pose proof (Forall2_nth _ _ _ k 0 (mkArr (akind b0) (ashape b0) []) FM) as N1.
  rewrite seq_length in N1. specialize (N1 ltac:(lia)). rewrite seq_nth in N1 by lia.
  destruct N1 as [E4 N1]. exists (nth k (b0 :: l) (mkArr (akind b0) (ashape b0) [])), E4. split; [exact N1|].
  rewrite Forall_forall in FL. destruct (FL (nth k (b0 :: l) (mkArr (akind b0) (ashape b0) []))) as [K S].
  { apply nth_In; auto. }
  split; [exact K|]. split; [rewrite <- S; reflexivity|]. intros idx Hi.
  unfold astack. rewrite get_tab; auto. apply inb_cons. split; auto. rewrite S; auto.
Qed.

Example C01_example (f : F) :
  (* array(lambda i: i * i, size=3) *)
  let e := PVec 0 (p_int 3) (PBin BMul (PStore (SX 0) (TScalar KInt)) (PStore (SX 0) (TScalar KInt))) in
  fresh_binders [] e /\ env_dom [] empty_env /\ consts_wf e /\
  den empty_env e = Ok (VArr (mkArr KInt [3] [SI 0; SI 1; SI 4])) /\
  (exists E', nin false e empty_env = Ok (VArr (mkArr KInt [3] [SI 0; SI 1; SI 4]), E')).
Proof.
  cbv zeta. split; [simpl; tauto|]. split; [intros s Hs; apply Hs; reflexivity|].
  split; [simpl; repeat split; repeat constructor|].
  split; [reflexivity|]. eexists. reflexivity.
Qed.

(** Finding: at size 0 the interpreter loses the inner dimensions and the
    element kind. *)
Theorem C01_empty_refuted :
  let e := PVec 0 (p_int 0) (PVec 1 (p_int 3) (PStore (SX 0) (TScalar KInt))) in
  typ e = Ok (TVec (TVec (TScalar KInt))) /\
  (exists E', nin false e empty_env = Ok (VArr (mkArr KFloat [0] []), E')) /\
  den empty_env e = Ok (VArr (mkArr KInt [0; 3] [])).
Proof. cbv zeta. split; [reflexivity|]. split; [eexists; reflexivity|reflexivity]. Qed.

(** * C02 *)

(** Reference semantics. *)
Theorem C02_iteration (E : env) c size acc init body vz z v :
  den E size = Ok vz -> val_int vz = Ok z ->
  (den E (PFold c size acc init body) = Ok v <->
   exists vs : nat -> val,
     den E init = Ok (vs 0) /\
     (forall k, (Z.of_nat k < z)%Z ->
        den (upd (upd E (SV acc) (vs k)) (SV c) (vint (Z.of_nat k))) body = Ok (vs (S k))) /\
     v = vs (Z.to_nat z)).
Proof.
  intros Hs Hz. cbn [den]. rewrite Hs. cbn [bind]. rewrite Hz. cbn [bind].
  set (f := fun k v => den (upd (upd E (SV acc) v) (SV c) (vnat k)) body).
  assert (G : forall n s a b, iter_res f s n a = Ok b <->
     exists vs : nat -> val, vs 0 = a /\ (forall k, k < n -> f (s + k) (vs k) = Ok (vs (S k))) /\ b = vs n).
  { induction n as [|n IH]; intros s a b; cbn [iter_res].
    - split.
      + intros H. injection H as <-. exists (fun _ => a). repeat split; auto. lia.
      + intros (vs & <- & _ & ->). reflexivity.
    - split.
      + intros H. apply bind_ok in H as (a' & H1 & H2). apply IH in H2 as (vs & <- & H2 & ->).
        exists (fun k => match k with 0 => a | S k => vs k end). split; auto. split; auto.
        intros [|k] Hk; [rewrite Nat.add_0_r; auto|]. rewrite <- Nat.add_succ_comm. apply H2. lia.
      + intros (vs & <- & H & ->). pose proof (H 0 ltac:(lia)) as H0. rewrite Nat.add_0_r in H0.
        rewrite H0. cbn [bind]. apply IH. exists (fun k => vs (S k)). split; auto. split; auto.
        intros k Hk. rewrite Nat.add_succ_comm. apply H. lia. }
  split.
  - intros H. apply bind_ok in H as (v0 & H0 & H). apply G in H as (vs & <- & H & ->).
    exists vs. split; auto. split; auto. intros k Hk. apply H. lia.
  - intros (vs & H0 & H & ->). rewrite H0. cbn [bind]. apply G. exists vs. split; auto. split; auto.
    intros k Hk. apply H. lia.
Qed.

(** The interpreter, counts >= 0; afterwards neither the counter nor the
    accumulator is bound and nothing else has changed. *)
Theorem C02_interpreter (X : list sym) (E E1 E' : env) c size acc init body vz z v :
  fresh_binders X (PFold c size acc init body) -> env_dom X E ->
  nin true size E = Ok (vz, E1) -> val_int vz = Ok z ->
  nin true (PFold c size acc init body) E = Ok (v, E') ->
  nin false (PFold c size acc init body) E = Ok (v, E') /\ (0 <= z)%Z /\
  (exists vs : nat -> val,
     den E init = Ok (vs 0) /\
     (forall k, (Z.of_nat k < z)%Z ->
        den (upd (upd E (SV acc) (vs k)) (SV c) (vint (Z.of_nat k))) body = Ok (vs (S k))) /\
     v = vs (Z.to_nat z)) /\
  E' (SV c) = None /\ E' (SV acc) = None /\ (forall s, E' s = E s).
Proof.
  intros FB D Hs Hz H. split; [apply nin_strict; auto|].
  destruct (nin_den _ _ _ FB D _ _ H) as [EE HD].
  pose proof FB as FB'. destruct FB' as (N1 & N2 & N3 & F1 & F2 & F3).
  destruct (nin_den _ _ _ F1 D _ _ Hs) as [EE1 HDs].
  assert (Ec : E (SV c) = None). { destruct (E (SV c)) eqn:Q; auto. exfalso. apply N1, D. congruence. }
  assert (Ea : E (SV acc) = None). { destruct (E (SV acc)) eqn:Q; auto. exfalso. apply N2, D. congruence. }
  split.
  - destruct (Z.ltb_spec z 0) as [Hneg|]; auto. exfalso.
    cbn [nin] in H. unfold sbind at 1 2 in H. rewrite Hs in H. cbn [bind fst snd] in H.
    unfold lift at 1 in H. rewrite Hz in H. cbn [bind fst snd] in H.
    unfold sbind at 1 in H. apply bind_ok in H as ([v0 E2] & HI & H). cbn [fst snd] in H.
    assert (D1 : env_dom X E1) by (eapply env_dom_eq; eauto).
    destruct (nin_den _ _ _ F2 D1 _ _ HI) as [EE2 _].
    unfold sbind at 1 in H. cbn [set_sym bind fst snd] in H.
    replace (Z.to_nat z) with 0 in H by lia. cbn [sloop] in H.
    unfold sbind at 1 in H. cbn [ret bind fst snd] in H.
    destruct (z =? 0)%Z eqn:Ez; [apply Z.eqb_eq in Ez; lia|].
    unfold sbind at 1 in H. unfold del_sym at 1, env_del in H.
    rewrite upd_neq, EE2, EE1, Ec in H by congruence. discriminate.
  - split; [apply C02_iteration with (size := size) (vz := vz); auto|].
    rewrite !EE. auto.
Qed.

(** A count of 0 gives the initial value. *)
Theorem C02_zero (E : env) c size acc init body vz z :
  den E size = Ok vz -> val_int vz = Ok z -> (z <= 0)%Z ->
  den E (PFold c size acc init body) = den E init.
Proof.
  intros Hs Hz Hn. cbn [den]. rewrite Hs. cbn [bind]. rewrite Hz. cbn [bind].
  replace (Z.to_nat z) with 0 by lia. simpl. destruct (den E init); reflexivity.
Qed.

Definition sum_fold (n : Z) : phi :=
  (* fold(0, lambda k, acc: acc * 2 + k, count=n) *)
  PFold 0 (p_int n) 1 (p_int 0)
    (PBin BAdd (PBin BMul (PStore (SV 1) (TScalar KInt)) (p_int 2)) (PStore (SV 0) (TScalar KInt))).

Example C02_example :
  fresh_binders [] (sum_fold 4) /\ env_dom [] empty_env /\
  (exists E', nin true (sum_fold 4) empty_env = Ok (vint 11, E') /\ E' (SV 0) = None) /\
  den empty_env (sum_fold 4) = Ok (vint 11) /\ den empty_env (sum_fold 0) = Ok (vint 0).
Proof.
  split; [simpl; intuition discriminate|]. split; [intros s Hs; apply Hs; reflexivity|].
  split; [eexists; split; reflexivity|]. split; reflexivity.
Qed.

(** Finding: on a negative count the interpreter raises KeyError, where the
    array backends return the initial value. *)
Theorem C02_negative_count_refuted :
  nin false (sum_fold (-1)) empty_env = Err EUnbound /\ den empty_env (sum_fold (-1)) = Ok (vint 0).
Proof. split; reflexivity. Qed.

(** * C04 (interpreter) *)
Theorem C04_interpreter (E E1 E2 E3 : env) t item a n sh w z v :
  nin false t E = Ok (VArr a, E1) -> nin false item E1 = Ok (w, E2) -> val_int w = Ok z ->
  ashape a = n :: sh -> 1 <= n ->
  nin false (PGet t item) E = Ok (v, E3) ->
  exists b k, v = VArr b /\ Z.of_nat k = Z.min (Z.max z 0) (Z.of_nat n - 1) /\ k < n /\
    akind b = akind a /\ ashape b = sh /\ (forall idx, inb sh idx -> get b idx = get a (k :: idx)).
Proof.
  intros Ht Hi Hz Hs Hn H. cbn [nin] in H. unfold sbind in H. rewrite Ht in H. cbn [bind fst snd lift as_arr] in H.
  rewrite Hi in H. cbn [bind fst snd] in H. unfold lift in H. rewrite Hz in H. cbn [bind fst snd] in H.
  unfold aget in H. rewrite Hs in H. cbn [bind] in H. injection H as <- <-.
  exists (asub a (clip z n)), (clip z n). split; auto. split; [unfold clip; lia|].
  split; [apply clip_lt; lia|]. split; [reflexivity|]. split; [simpl; rewrite Hs; reflexivity|].
  intros idx Hx. apply asub_get. rewrite Hs. exact Hx.
Qed.

(** Reference semantics: out-of-range reads are reads of the nearest element. *)
Theorem C04_reference (E : env) t item w z v n :
  den E t = Ok v -> den E item = Ok w -> val_int w = Ok z -> vdim v 0 = Ok n -> 1 <= n ->
  den E (PGet t item) = den E (PGet t (p_int (Z.min (Z.max z 0) (Z.of_nat n - 1)))).
Proof.
  intros Ht Hi Hz Hn Hp. cbn [den]. rewrite Ht, Hi. cbn [bind]. rewrite Hz. cbn [bind].
  unfold p_int. cbn [den bind]. change (val_int (VArr (ascalar (SI ?x)))) with (@Ok Z x). cbn [bind].
  clear - Hn Hp. revert n Hn Hp. induction v as [a|v1 IH1 v2 IH2]; intros n Hn Hp; cbn [vget].
  - unfold aget. simpl in Hn. destruct (ashape a) as [|m sh]; simpl in Hn; [discriminate|].
    injection Hn as ->. do 3 f_equal. unfold clip. lia.
  - simpl in Hn. inv_bind. apply Nat.eqb_eq in Hb1. subst.
    rewrite (IH1 _ ltac:(eassumption) ltac:(assumption)), (IH2 _ ltac:(eassumption) ltac:(assumption)). reflexivity.
Qed.

Example C04_example :
  let a := PConst (mkArr KInt [3] [SI 10; SI 20; SI 30]) in
  den empty_env (PGet a (p_int 7)) = Ok (vint 30) /\ den empty_env (PGet a (p_int (-2))) = Ok (vint 10) /\
  exists E', nin false (PGet a (p_int (-2))) empty_env = Ok (vint 10, E').
Proof. cbv zeta. split; [reflexivity|]. split; [reflexivity|]. eexists. reflexivity. Qed.

(** * C30 (interpreter) *)
Theorem C30_interpreter (X : list sym) (e : phi) (E E' : env) v :
  fresh_binders X e -> (forall s, E s <> None -> In s X) ->
  nin false e E = Ok (v, E') ->
  (forall s, E' s = E s) /\
  (* hence running it again gives the same result *)
  exists E'', nin false e E' = Ok (v, E'') /\ (forall s, E'' s = E s).
Proof.
  intros FB D H. destruct (nin_restores false e X E FB D v E' H) as [S _]. split; auto.
  assert (S' : same_env E E') by (intros s; symmetry; apply S).
  destruct (nin_same _ _ _ _ _ _ S' H) as (E'' & H1 & H2). exists E''. split; auto.
  intros s. rewrite <- H2. apply S.
Qed.

Example C30_example :
  let E := upd empty_env (SV 7) (vint 5) in
  let e := PBin BAdd (sum_fold 3) (PStore (SV 7) (TScalar KInt)) in
  fresh_binders [SV 7] e /\ (forall s, E s <> None -> In s [SV 7]) /\
  exists E', nin false e E = Ok (vint 9, E').
Proof.
  cbv zeta. split; [simpl; intuition discriminate|]. split; [|eexists; reflexivity].
  intros s. unfold upd, empty_env. destruct (sym_eqb s (SV 7)) eqn:Q; [|congruence].
  apply sym_eqb_eq in Q. subst. simpl. auto.
Qed.

(** Without the freshness condition a loop destroys an outer binding. *)
Theorem C30_rebinding_refuted :
  exists (e : phi) (E E' : env) v, nin false e E = Ok (v, E') /\ E (SV 1) <> None /\ E' (SV 1) = None.
Proof.
  exists (sum_fold 3), (upd empty_env (SV 1) (vint 5)). eexists. exists (vint 4).
  split; [reflexivity|]. split; [discriminate|reflexivity].
Qed.

(** * C36 *)
(** What the interpreter computes is the reference semantics, for runs that
    meet no empty comprehension. *)
Theorem C36_interpreter_reference (X : list sym) (e : phi) (E E' : env) v :
  fresh_binders X e -> (forall s, E s <> None -> In s X) ->
  nin true e E = Ok (v, E') ->
  nin false e E = Ok (v, E') /\ den E e = Ok v /\ (forall s, E' s = E s).
Proof.
  intros FB D H. split; [apply nin_strict; auto|]. destruct (nin_den _ _ _ FB D _ _ H). auto.
Qed.

Example C36_example :
  let e := PVec 0 (p_int 2) (PBin BAdd (sum_fold 3) (PStore (SX 0) (TScalar KInt))) in
  fresh_binders [] e /\
  (let* r := nin true e empty_env in Ok (fst r)) = Ok (VArr (mkArr KInt [2] [SI 4; SI 5])).
Proof. cbv zeta. split; [simpl; intuition discriminate|]. vm_compute. reflexivity. Qed.

End Props.

Print Assumptions C01_element_law.
Print Assumptions C01_defined.
Print Assumptions C01_interpreter.
Print Assumptions C01_empty_refuted.
Print Assumptions C02_iteration.
Print Assumptions C02_interpreter.
Print Assumptions C02_zero.
Print Assumptions C02_negative_count_refuted.
Print Assumptions C04_interpreter.
Print Assumptions C04_reference.
Print Assumptions C30_interpreter.
Print Assumptions C30_rebinding_refuted.
Print Assumptions C36_interpreter_reference.
