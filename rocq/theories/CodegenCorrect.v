(** Binders in the translation to array code: phi_to_yarr.py:64-70, 82-96, 165-191, 250-257. *)
From Verif Require Import Base Scalar Tensor Types Sym Phi Den Term PhiTerm DenFree SpecPhi Lining TypesFacts Typing DenWf Naive
  Sizes ClipShift NdOps NdFacts Yarr Axial AxialFacts AxialOps Codegen IndexOps YOps CodegenSafe CodegenGet CodegenCtx CodegenCases
  CodegenAxes.

Section Correct.
Context {FO : FloatOps} {EX : Externs} {PO : PadOps}.
Variable fl : flags.
Variable orc : oracle.
Variable padk : kind -> bool.
Variable pade : bool.
Notation goodt := (good fl orc padk pade).

Lemma fresh_v X I x e : fresh_binders (SV x :: in_scope X I) e -> fresh_binders (in_scope (x :: X) I) e.
Proof. intros H. exact H. Qed.
Lemma fresh_x X I i e : fresh_binders (SX i :: in_scope X I) e -> fresh_binders (in_scope X (i :: I)) e.
Proof.
  intros H. eapply (fresh_binders_sub fl orc padk); [exact H|]. intros s Hs. unfold in_scope in *. rewrite in_app_iff in *. simpl in *.
  rewrite in_app_iff. tauto.
Qed.

(** What the translation of terms of smaller fuel does. *)
Definition rec_spec (rec : idx_sizes -> var_axes -> phi -> res axial) : Prop :=
  forall N I X r idxs vax E G e a,
    rec idxs vax e = Ok a -> ctx N I X r idxs vax E G -> goodt G N I X E e -> result_ok N I X r E e a.

Section Binders.
Variable rec : idx_sizes -> var_axes -> phi -> res axial.
Hypothesis REC : rec_spec rec.
Variables (N : nat -> nat) (I X : list nat) (r : yenv) (idxs : idx_sizes) (vax : var_axes) (E : asg -> env) (G : tctx).
Hypothesis C : ctx N I X r idxs vax E G.
Notation good := (goodt G N I X E).
Notation result_ok := (result_ok N I X r E).

(** 64-70 *)
Lemma case_let x b body ax :
  (let* a := rec idxs vax b in
   let* q := rec idxs ((x, ax_axes a) :: vax) body in
   within q x (ax_expr a)) = Ok ax ->
  good (PLet x b body) -> result_ok (PLet x b body) ax.
Proof.
  intros H Hg. apply bind_ok in H as (a & Ha & H). apply bind_ok in H as (q & Hq & H).
  unfold within in H. apply mk_axial_inv in H as (-> & ND & _).
  assert (Gb := good_let_parts _ _ _ _ _ _ _ _ _ _ _ _ Hg).
  destruct (REC _ _ _ _ _ _ _ _ _ _ Ha C Gb) as (lb & Yb & Vb).
  destruct Hg as [(t & HT) HSC HINT HEXT HFB HSAFE HDEN]. cbn [typ] in HT. apply bind_ok in HT as (tb & Tb & HT).
  simpl in HSC, HINT, HEXT, HFB. destruct HSC as (S1 & tb' & Tb' & S2). rewrite Tb in Tb'. injection Tb' as <-.
  destruct HINT as [I1 I2], HEXT as [X1 X2], HFB as (NX & FB1 & FB2).
  assert (Hx : ~ In x X) by (intros K; apply NX; apply in_scope_v; auto).
  assert (C' := ctx_bind N I X r idxs vax E G x (ax_axes a) lb (fun s => dval (E s) b) tb C Hx Vb
    (dval_loc N I X r idxs vax E G C b)
    (fun s Hs => good_typed _ _ _ _ _ _ _ _ _ _ _ _ C b tb s Gb Tb Hs)).
  assert (DB : forall s, wv N I s -> den (E s) b = Ok (dval (E s) b)) by (intros s Hs; eapply good_den; eauto).
  assert (G' : goodt (upd G (SV x) tb) N I (x :: X) (fun s => upd (E s) (SV x) (dval (E s) b)) body).
  { constructor; eauto.
    - intros s Hs f. apply (HSAFE s Hs (S f)). auto.
    - intros s Hs. destruct (HDEN s Hs) as (v & D). cbn [den] in D. rewrite (DB s Hs) in D. eauto. }
  destruct (REC _ _ _ _ _ _ _ _ _ _ Hq C' G') as (l & Y & V).
  exists l. cbn [ax_axes ax_expr]. split; [eapply yok_let; eauto|].
  eapply vrep_ext; [|exact V]. intros s Hs. unfold dval at 1. unfold dval at 2. cbn [den].
  rewrite (DB s Hs). reflexivity.
Qed.

Lemma normal_ok e a y : rec idxs vax e = Ok a -> normal a = Ok y -> good e -> int_typed e ->
  exists z, yok X r y [ascalar (SI z)] /\ forall s, wv N I s -> dval (E s) e = VArr (ascalar (SI z)).
Proof.
  intros H Hn Hg Ht.
  destruct (normal_const fl orc padk pade N I X r idxs vax E G C (rec idxs vax)
              (fun e a He Ge => REC _ _ _ _ _ _ _ _ _ _ He C Ge) e a y H Hn Hg Ht) as (z & Y & HZ).
  exists z. split; auto. intros s Hs. rewrite (good_zof fl orc padk pade N I X r idxs vax E G C e s Hg Ht Hs), HZ; auto.
Qed.

(** 250-257 *)
Lemma case_vec i size body ax :
  (let* s := rec idxs vax size in
   let* s := normal s in
   let* b := rec ((i, s) :: idxs) vax body in
   along b i s) = Ok ax ->
  good (PVec i size body) -> result_ok (PVec i size body) ax.
Proof.
  intros H Hg. apply bind_ok in H as (sa & Hsa & H). apply bind_ok in H as (ys & Hys & H). apply bind_ok in H as (b & Hb & H).
  destruct (good_vec_size _ _ _ _ _ _ _ _ _ _ _ _ Hg) as [Gs Ts].
  destruct (normal_ok _ _ _ Hsa Hys Gs Ts) as (z & Ys & HZ).
  destruct Hg as [(t & HT) HSC HINT HEXT HFB HSAFE HDEN]. cbn [typ] in HT. apply bind_ok in HT as (ts & Ts' & HT).
  apply bind_ok in HT as (tb & Tb & HT).
  simpl in HSC, HINT, HEXT, HFB. destruct HSC as (S1 & S2).
  destruct HINT as [I1 I2], HEXT as [X1 X2], HFB as (NX & FB1 & FB2).
  assert (Hi : ~ In i I) by (intros K; apply NX; apply in_scope_x; auto).
  assert (DS : forall s, wv N I s -> den (E s) size = Ok (VArr (ascalar (SI z)))).
  { intros s Hs. rewrite <- (HZ s Hs). eapply good_den; eauto. }
  assert (VI : val_int (VArr (ascalar (SI z))) = Ok z) by reflexivity.
  assert (Z0 : (0 <= z)%Z).
  { destruct (HSAFE _ (wv_zero N I) 1) as [_ Q]. apply (Q _ z (DS _ (wv_zero N I)) VI). }
  set (n := Z.to_nat z) in *. assert (ZN : z = Z.of_nat n) by (unfold n; lia).
  assert (Ys' : yok X r ys [ascalar (SI (Z.of_nat n))]) by (rewrite <- ZN; auto).
  assert (C' := ctx_index N I X r idxs vax E G i n ys C Hi Ys').
  set (N' := set_asg N i n) in *.
  assert (HN : forall j, In j I -> N' j = N j).
  { intros j Hj. unfold N'. rewrite set_asg_neq; auto. intros ->. auto. }
  assert (HW : forall s, wv N' (i :: I) s -> wv N I s).
  { intros s Hs. apply wv_N with (N := N'); [auto|]. eapply wv_sub; [|exact Hs]. apply incl_tl, incl_refl. }
  assert (NI : N' i = n) by apply set_asg_eq.
  assert (DB : forall s k, wv N I s -> k < Nat.max 1 n -> exists v, den (upd (E s) (SX i) (vnat k)) body = Ok v).
  { intros s k Hs Hk. destruct (HDEN s Hs) as (v & D). cbn [den] in D. rewrite (DS s Hs) in D. cbn [bind] in D.
    rewrite VI in D. cbn [bind] in D. fold n in D. apply bind_ok in D as (v0 & D0 & D). apply bind_ok in D as (vs & D1 & D).
    destruct k as [|k]; [exists v0; exact D0|]. apply mapM_Forall2 in D1.
    exists (nth (S k) vs v0). assert (Q : S k < n) by lia.
    pose proof (Forall2_nth _ _ _ (S k) 0 v0 D1 ltac:(rewrite seq_length; auto)) as Q1. cbv beta in Q1.
    rewrite seq_nth in Q1 by auto. exact Q1. }
  assert (G' : goodt (upd G (SX i) (TScalar KInt)) N' (i :: I) X (fun s => upd (E s) (SX i) (vnat (s i))) body).
  { constructor; eauto.
    - apply fresh_x; auto.
    - intros s Hs f. destruct (HSAFE s (HW s Hs) (S f)) as [_ Q]. apply (Q _ z (DS s (HW s Hs)) VI).
      specialize (Hs i ltac:(left; auto)). rewrite NI in Hs. auto.
    - intros s Hs. apply DB; auto. specialize (Hs i ltac:(left; auto)). rewrite NI in Hs. auto. }
  destruct (REC _ _ _ _ _ _ _ _ _ _ Hb C' G') as (l & Y & ND & IN & V).
  set (E' := fun s => upd (E s) (SX i) (vnat (s i))) in *.
  assert (L1 : exists bb, l = [bb]).
  { unfold along in H. apply bind_ok in H as (rk & Hrk & _). destruct (rank_rep _ _ _ _ _ Hrk Y) as (bb & -> & _). eauto. }
  destruct L1 as (bb & ->).
  destruct (vfrep_one_inv _ _ _ _ _ _ V) as (rest & k & F & HV).
  set (A := leaf (fun s => dval (E' s) body) 0) in *. change (frep N' (i :: I) all_axes (ax_axes b) rest k bb A) in F.
  destruct b as [axb yb]. cbn [ax_axes ax_expr] in *.
  (* the element at position j *)
  assert (EL : forall s j, wv N I s -> j < Nat.max 1 n ->
     wv N' (i :: I) (set_asg s i j) /\ den (upd (E s) (SX i) (vnat j)) body = Ok (VArr (A (set_asg s i j)))).
  { intros s j Hs Hj.
    assert (W : wv N' (i :: I) (set_asg s i j)).
    { apply wv_set; [|rewrite NI; auto]. apply wv_N with (N := N); auto. intros; symmetry; auto. }
    split; auto. replace (VArr (A (set_asg s i j))) with (dval (E' (set_asg s i j)) body) by exact (HV _ W). unfold E'. rewrite set_asg_eq.
    rewrite (c_loc _ _ _ _ _ _ _ _ C (set_asg s i j) s).
    - destruct (DB s j Hs Hj) as (v & D). rewrite (dval_ok _ _ _ D). auto.
    - intros q Hq. apply set_asg_neq. intros ->. auto. }
  assert (DV : forall s, wv N I s -> dval (E s) (PVec i size body) =
     VArr (astack k rest (map (fun j => A (set_asg s i j)) (seq 0 n)))).
  { intros s Hs. apply dval_ok. destruct (HDEN s Hs) as (v & D). rewrite D. cbn [den] in D. rewrite (DS s Hs) in D. cbn [bind] in D.
    rewrite VI in D. cbn [bind] in D. fold n in D.
    destruct (EL s 0 Hs ltac:(lia)) as [W0 D0]. change (vint 0) with (vnat 0) in D. rewrite D0 in D. cbn [bind] in D.
    assert (M : mapM (fun k => den (upd (E s) (SX i) (vnat k)) body) (seq 0 n) = Ok (map (fun j => VArr (A (set_asg s i j))) (seq 0 n))).
    { apply mapM_Forall2. clear D. assert (Q : forall q, In q (seq 0 n) -> q < n) by (intros q Hq; apply in_seq in Hq; lia).
      revert Q. generalize (seq 0 n). intros lq Q. induction lq as [|q lq IHq]; simpl; constructor.
      - apply EL; auto. specialize (Q q ltac:(left; auto)). lia.
      - apply IHq. intros; apply Q; right; auto. }
    rewrite M in D. cbn [bind vstack] in D.
    assert (AA : mapM as_arr (map (fun j => VArr (A (set_asg s i j))) (seq 0 n)) = Ok (map (fun j => A (set_asg s i j)) (seq 0 n))).
    { clear. induction (seq 0 n) as [|q lq IHq]; simpl; auto. rewrite IHq. reflexivity. }
    rewrite AA in D. cbn [bind] in D. apply bind_ok in D as (u & _ & D). injection D as <-.
    destruct (fr_mem _ _ _ _ _ _ _ _ F _ W0) as (_ & K0 & SH0).
    rewrite K0, SH0. reflexivity. }
  set (A' := fun s => astack k rest (map (fun j => A (set_asg s i j)) (seq 0 n))).
  destruct (along_ok N' I X r axb yb i ys ax rest k bb A A' H Hi ND IN Y F) as (b' & Y' & ND' & IN' & F').
  - rewrite NI. auto.
  - intros s Hs. assert (Hs' : wv N I s) by (apply wv_N with (N := N'); auto). rewrite NI.
    assert (NTH : forall j, j < n -> nth j (map (fun j => A (set_asg s i j)) (seq 0 n)) (mkArr k rest []) = A (set_asg s i j)).
    { intros j Hj. rewrite nth_indep with (d' := A (set_asg s i 0)) by (rewrite map_length, seq_length; auto).
      rewrite (map_nth (fun j => A (set_asg s i j))). rewrite seq_nth by auto. reflexivity. }
    assert (SH : ashape (A' s) = n :: rest) by (unfold A', astack; simpl; rewrite map_length, seq_length; auto).
    split; [|split; [reflexivity|split; auto]].
    + unfold A', astack. rewrite map_length, seq_length. apply tab_wf. intros idx Hidx.
      destruct idx as [|j p]; [inversion Hidx|]. apply inb_cons in Hidx as [Hj Hp]. rewrite NTH by auto.
      destruct (EL s j Hs' ltac:(lia)) as [W _]. destruct (fr_mem _ _ _ _ _ _ _ _ F _ W) as (WA & KA & SA).
      rewrite <- KA. apply get_kind; auto. rewrite SA. auto.
    + intros j p Hj Hp. unfold A', astack. rewrite get_tab by (rewrite map_length, seq_length; apply inb_cons; auto).
      rewrite NTH by auto. reflexivity.
  - exists [b']. split; auto. split; auto. split; auto. eapply vfrep_one with (A := A'); [exact DV|].
    rewrite NI in F'. eapply frep_N; [|apply incl_refl|exact IN'|exact F']. auto.
Qed.

(** The accumulator before iteration [k], as a value. *)
Definition accv (c acc : nat) (init body : phi) (k : nat) (s : asg) : val :=
  match acc_val (E s) c acc init body k with Ok v => v | Err _ => vint 0 end.

Lemma acc_val_S E0 c acc init body k :
  acc_val E0 c acc init body (S k) =
  (let* w := acc_val E0 c acc init body k in den (fold_env E0 c acc k w) body).
Proof.
  unfold acc_val. destruct (den E0 init) as [v0|]; auto. cbn [bind]. rewrite iter_res_snoc. reflexivity.
Qed.
Lemma acc_val_prefix E0 c acc init body n : forall k, k <= n ->
  (exists v, acc_val E0 c acc init body n = Ok v) -> exists v, acc_val E0 c acc init body k = Ok v.
Proof.
  induction n as [|n IH]; intros k Hk H.
  - assert (k = 0) by lia. subst; auto.
  - destruct (Nat.eq_dec k (S n)) as [->|]; auto. apply IH; [lia|]. destruct H as (v & H). rewrite acc_val_S in H.
    apply bind_ok in H as (w & Hw & _). eauto.
Qed.

Lemma loop_axes acc axi body b0 (G' : tctx) :
  axes_ok ((acc, axi) :: vax) body b0 -> incl axi I -> scoped G' body ->
  (forall i, G' (SX i) <> None -> G (SX i) <> None) -> incl (ax_axes b0) I.
Proof.
  intros [_ AX] HI SC HG x Hx. destruct (AX x Hx) as [K|(y & K)].
  - apply (in_scope_x X). apply (c_dom _ _ _ _ _ _ _ _ C). apply HG. apply (scoped_free _ _ _ SC K).
  - rewrite axes_of_cons in K. destruct (acc =? y); auto.
    destruct (in_dec Nat.eq_dec y X) as [Hy|Hy].
    + destruct (c_var _ _ _ _ _ _ _ _ C y Hy) as (l & V & _ & _ & (_ & IN & _)). auto.
    + rewrite (c_new _ _ _ _ _ _ _ _ C y Hy) in K. destruct K.
Qed.

(** 82-96, 165-191: the loop *)
Lemma case_fold c size acc init body ax :
  strict fl = true ->
  (forall vax a, rec idxs vax body = Ok a -> axes_ok vax body a) ->
  (let* s := rec idxs vax size in
   let* s := normal s in
   let* i := rec idxs vax init in
   let* b0 := rec idxs ((acc, ax_axes i) :: vax) body in
   let acc_axes := ax_axes b0 in
   let* b := rec idxs ((acc, acc_axes) :: vax) body in
   let* _ := guard (negb (strict fl) || (same_axes (ax_axes b) acc_axes && covers idxs acc_axes i)) EAssert in
   let* yi := aligned i acc_axes true idxs in
   let* yb := aligned b acc_axes true [] in
   mk_axial acc_axes (YFold c s acc yi yb)) = Ok ax ->
  good (PFold c size acc init body) -> result_ok (PFold c size acc init body) ax.
Proof.
  intros STR AXS H Hg. apply bind_ok in H as (sa & Hsa & H). apply bind_ok in H as (ys & Hys & H).
  apply bind_ok in H as (i & Hi & H). apply bind_ok in H as (b0 & Hb0 & H). cbv zeta in H.
  set (axs := ax_axes b0) in *. apply bind_ok in H as (b & Hb & H). apply bind_ok in H as (u & SA & H).
  apply guard_ok in SA. rewrite STR in SA. cbn [negb orb] in SA. apply andb_true_iff in SA as [SA CV].
  apply bind_ok in H as (yi & Hyi & H). apply bind_ok in H as (yb & Hyb & H).
  apply mk_axial_inv in H as (-> & ND & p & TY & _). cbn [ytyp] in TY.
  apply bind_ok in TY as (q & _ & TY). apply bind_ok in TY as (pi & Tyi & TY). apply bind_ok in TY as (pb & Tyb & TY).
  apply bind_ok in TY as (sg & _ & TY). apply bind_ok in TY as (u1 & _ & TY). apply bind_ok in TY as (u2 & EQ & _).
  apply guard_ok in EQ. apply pty_eqb_eq in EQ. subst pb.
  destruct (good_fold_parts _ _ _ _ _ _ _ _ _ _ _ _ _ _ Hg) as (Gs & Ts & Gi & t & Ti & Tb & _).
  destruct (normal_ok _ _ _ Hsa Hys Gs Ts) as (z & Ys & HZ).
  destruct (REC _ _ _ _ _ _ _ _ _ _ Hi C Gi) as (li & Yi & Vi).
  destruct Hg as [_ HSC HINT HEXT HFB HSAFE HDEN].
  simpl in HSC, HINT, HEXT, HFB. destruct HSC as (_ & _ & t' & Ti' & S2). rewrite Ti in Ti'. injection Ti' as <-.
  destruct HINT as (_ & _ & I2), HEXT as (_ & _ & X2), HFB as (NC & NA & CA & _ & _ & FB).
  assert (Ha : ~ In acc X) by (intros K; apply NA; apply in_scope_v; auto).
  assert (Hc : ~ In c (acc :: X)) by (intros [K|K]; [auto|apply NC; apply in_scope_v; auto]).
  assert (IA : incl axs I).
  { eapply (loop_axes acc (ax_axes i) body b0); [apply AXS; exact Hb0|apply Vi|exact S2|].
    intros x. rewrite !upd_neq by discriminate. auto. }
  (* the loop at each position *)
  assert (DS : forall s, wv N I s -> den (E s) size = Ok (VArr (ascalar (SI z)))).
  { intros s Hs. rewrite <- (HZ s Hs). eapply good_den; eauto. }
  set (n := Z.to_nat z) in *. set (W := accv c acc init body).
  assert (DF : forall s, wv N I s -> den (E s) (PFold c size acc init body) = acc_val (E s) c acc init body n).
  { intros s Hs. cbn [den]. rewrite (DS s Hs). cbn [bind]. change (val_int (VArr (ascalar (SI z)))) with (Ok z). reflexivity. }
  assert (DW : forall s k, wv N I s -> k <= n -> acc_val (E s) c acc init body k = Ok (W k s)).
  { intros s k Hs Hk. destruct (acc_val_prefix (E s) c acc init body n k Hk) as (v & Q).
    - rewrite <- DF by auto. auto.
    - unfold W, accv. rewrite Q. auto. }
  assert (W0 : forall s, wv N I s -> W 0 s = dval (E s) init).
  { intros s Hs. unfold W, accv, acc_val. rewrite (good_den _ _ _ _ _ _ _ _ _ _ _ Gi Hs). reflexivity. }
  assert (WL : forall k s s', (forall i, In i I -> s i = s' i) -> W k s = W k s').
  { intros k s s' Hs. unfold W, accv. rewrite (c_loc _ _ _ _ _ _ _ _ C s s' Hs). auto. }
  (* the initial value *)
  destruct (aligned_ok N I X r i axs true idxs yi _ _ Hyi (sizes_ctx _ _ _ _ _ _ _ _ C) ND IA Yi Vi)
    as (l0 & Y0 & L0 & _ & F0).
  assert (R0 : vrep N I axs l0 (W 0)).
  { split; auto. split; auto. eapply vfrep_ext; [| |exact F0].
    - intros j Hj. cbv beta. apply covers_has with (axes := axs); auto.
    - intros s Hs. symmetry. auto. }
  assert (TI : forall s, wv N I s -> has_type (W 0 s) t).
  { intros s Hs. rewrite W0 by auto. eapply good_typed; eauto. }
  (* one iteration *)
  assert (STEP : forall k l, k < n -> vrep N I axs l (W k) -> (forall s, wv N I s -> has_type (W k s) t) ->
    exists l', yok (c :: acc :: X) (upd (upd r (SV acc) (pack l)) (SV c) (YA (ascalar (SI (Z.of_nat k))))) yb l' /\
      vrep N I axs l' (W (S k)) /\ forall s, wv N I s -> has_type (W (S k) s) t).
  { intros k l Hk V TW.
    assert (C1 := ctx_bind N I X r idxs vax E G acc axs l (W k) t C Ha V (WL k) TW).
    assert (C2 := ctx_bind_const _ _ _ _ _ _ _ _ c (SI (Z.of_nat k)) C1 Hc). cbn [skind] in C2.
    set (E2 := fun s => upd (upd (E s) (SV acc) (W k s)) (SV c) (VArr (ascalar (SI (Z.of_nat k))))) in *.
    assert (D2 : forall s, wv N I s -> den (E2 s) body = Ok (W (S k) s)).
    { intros s Hs. pose proof (DW s (S k) Hs ltac:(lia)) as Q. rewrite acc_val_S, (DW s k Hs) in Q by lia. exact Q. }
    assert (G2 : goodt (upd (upd G (SV acc) t) (SV c) (TScalar KInt)) N I (c :: acc :: X) E2 body).
    { constructor; eauto.
      - intros s Hs f. destruct (HSAFE s Hs (S f)) as (_ & _ & Q & _).
        apply (Q _ z k (W k s) (DS s Hs) eq_refl Hk). apply DW; auto. lia. }
    destruct (REC _ _ _ _ _ _ _ _ _ _ Hb C2 G2) as (lb & Yb & Vb).
    assert (SO : sizes_ok N I (c :: acc :: X) (upd (upd r (SV acc) (pack l)) (SV c) (YA (ascalar (SI (Z.of_nat k))))) []).
    { intros j m Hj Q. discriminate. }
    destruct (aligned_ok N I _ _ b axs true [] yb _ _ Hyb SO ND IA Yb Vb) as (l' & Y' & L' & _ & F').
    exists l'. split; auto. split.
    - split; auto. split; auto. eapply vfrep_ext; [| |exact F'].
      + intros j Hj. cbv beta. cbn [into_axes] in Hj.
        assert (Q : mem j (ax_axes b) = true) by (apply mem_In, (same_axes_iff _ _ SA j); auto). rewrite Q. reflexivity.
      + intros s Hs. apply dval_ok. auto.
    - intros s Hs. rewrite <- (dval_ok _ _ _ (D2 s Hs)). eapply good_typed; eauto. }
  (* all iterations *)
  assert (ALL : forall k, k <= n -> exists L : nat -> list arr, L 0 = l0 /\
     (forall j, j <= k -> vrep N I axs (L j) (W j)) /\
     (forall s, wv N I s -> has_type (W k s) t) /\
     forall j, j < k -> yok (c :: acc :: X) (upd (upd r (SV acc) (pack (L j))) (SV c) (YA (ascalar (SI (Z.of_nat j))))) yb (L (S j))).
  { induction k as [|k IHk]; intros Hk.
    - exists (fun _ => l0). split; auto. split; [|split; auto; intros; lia]. intros j Hj. assert (j = 0) by lia. subst; auto.
    - destruct (IHk ltac:(lia)) as (L & LZ & LV & LT & LY).
      destruct (STEP k (L k) Hk (LV k (le_n k)) LT) as (l' & Y' & V' & T').
      exists (fun j => if j =? S k then l' else L j). split; auto. split; [|split; auto].
      + intros j Hj. destruct (Nat.eqb_spec j (S k)) as [->|]; auto. apply LV. lia.
      + intros j Hj. destruct (Nat.eqb_spec j (S k)) as [->|]; [lia|].
        destruct (Nat.eqb_spec (S j) (S k)) as [Q|]; [injection Q as ->; auto|]. apply LY. lia. }
  destruct (ALL n (le_n n)) as (L & LZ & LV & LT & LY).
  assert (TZ : map aty (L n) = map aty (L 0)).
  { rewrite (vrep_types _ _ _ _ _ _ (LV n (le_n n)) (wv_zero N I)), (vrep_types _ _ _ _ _ _ (LV 0 (Nat.le_0_l n)) (wv_zero N I)).
    rewrite (has_type_leaves _ _ (LT _ (wv_zero N I))), (has_type_leaves _ _ (TI _ (wv_zero N I))). reflexivity. }
  exists (L n). cbn [ax_axes ax_expr]. split.
  - apply yok_fold; auto.
    + rewrite LZ. auto.
    + rewrite LZ, Tyb, <- (proj2 Y0), Tyi. reflexivity.
  - eapply vrep_ext; [|exact (LV n (le_n n))]. intros s Hs. symmetry. apply dval_ok. rewrite DF by auto. auto.
Qed.
End Binders.
End Correct.
